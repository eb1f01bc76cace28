(** Model of src/create_tokens.rs, src/create_tokens/get_word_tag.rs and
    src/lib.rs. *)

From Verif Require Export ModelLine.

(** Functions of external crates and of std's Unicode tables, used in
    src/create_tokens.rs:100,147, src/create_tokens/get_word_tag.rs:20,31,39,
    src/ll_line/display.rs:49,60, src/resolvers/text_match.rs:27,36,53. *)
Class Unicode : Type := {
  u_alphabetic : char -> bool;      (* char::is_alphabetic *)
  u_whitespace : char -> bool;      (* char::is_whitespace *)
  u_lower : str -> str;             (* str::to_lowercase *)
  u_width : char -> nat;            (* unicode_width, per character *)
  u_words : str -> list str;        (* UnicodeSegmentation::split_word_bounds *)
}.

(** The machine: the width of [usize] in bits and whether arithmetic overflow panics
    (debug build) or wraps (release build): src/create_tokens.rs:69-77,
    src/ll_line/display.rs:80. *)
Record Target : Type := mkTarget { usize_bits : N; overflow_checks : bool }.
(** one more than [usize::MAX] (the type of src/ll_line.rs:50-52) *)
Definition usize_mod (tg : Target) : N := (2 ^ usize_bits tg)%N.

(** [a + b] on [usize], src/create_tokens.rs:69-77 *)
Definition add_usize (tg : Target) (a b : N) : res N :=
  if (a + b <? usize_mod tg)%N then Ok (a + b)%N
  else if overflow_checks tg then Panic POverflow
  else Ok ((a + b) mod usize_mod tg)%N.

(** Number of UTF-8 bytes of a char ([char::len_utf8]), for [str::len] of
    src/lib.rs:25 and src/create_tokens/get_word_tag.rs:9 *)
Definition char_len_utf8 (c : char) : N :=
  if (c <? 128)%N then 1 else if (c <? 2048)%N then 2 else if (c <? 65536)%N then 3 else 4.

(** [str::len], src/lib.rs:25, src/create_tokens/get_word_tag.rs:9 *)
Fixpoint str_len (s : str) : N :=
  match s with [] => 0%N | c :: s' => (char_len_utf8 c + str_len s')%N end.

(** [char::is_ascii_digit], src/create_tokens.rs:101-106,143 *)
Definition is_ascii_digit (c : char) : bool := (48 <=? c)%N && (c <=? 57)%N.
(** [str::is_ascii], src/create_tokens.rs:107-111 *)
Definition str_is_ascii (s : str) : bool := forallb (fun c => (c <? 128)%N) s.

(** src/create_tokens/get_word_tag.rs:4 [const PUNCTUATION] = comma, period, exclamation mark, semicolon, colon, question mark, apostrophe, double quote *)
Definition PUNCTUATION : list char := [44; 46; 33; 59; 58; 63; 39; 34]%N.

Section Tokens.
Context {UC : Unicode}.

(** src/create_tokens/get_word_tag.rs:18-25 *)
Fixpoint is_spaces (s : str) : bool :=
  match s with
  | [] => true
  | c :: s' => if negb (u_whitespace c) then false else is_spaces s'
  end.

(** src/create_tokens/get_word_tag.rs:37-50, the loop over the rest: apostrophe, hyphen and en dash *)
Fixpoint is_word_rest (s : str) : bool :=
  match s with
  | [] => true
  | c :: s' =>
      if u_alphabetic c then is_word_rest s'
      else if (c =? 39)%N || (c =? 45)%N || (c =? 8211)%N then is_word_rest s'
      else false
  end.

(** src/create_tokens/get_word_tag.rs:28-53 *)
Definition is_word (s : str) : bool :=
  match s with
  | [] => false
  | c :: s' => if u_alphabetic c then is_word_rest s' else false
  end.

(** src/create_tokens/get_word_tag.rs:6-16 *)
Definition get_unicode_word_tag (word : str) : TextTag :=
  if is_spaces word then SPACE
  else if (str_len word =? 1)%N
          && match word with c :: _ => existsb (N.eqb c) PUNCTUATION | [] => false end
  then PUNC
  else if is_word word then WORD
  else SYMB.

(** A token with its size, as in src/create_tokens.rs:93 [Vec<(LToken, usize)>] *)
Notation sized := (prod LToken N).

Section Splitter.
Context (get_text_size : str -> N).

(** src/create_tokens.rs:118-128 [insert_collected_digits!] *)
Definition flush_digits (ltokens : list sized) (digits : str) : list sized :=
  match digits with
  | [] => ltokens
  | _ :: _ => ltokens ++ [(LText digits NATN, get_text_size digits)]
  end.

(** src/create_tokens.rs:130-140 [insert_collected_letters!] *)
Definition flush_letters (ltokens : list sized) (letters : str) : list sized :=
  match letters with
  | [] => ltokens
  | _ :: _ => ltokens ++ [(LText letters WORD, get_text_size letters)]
  end.

(** src/create_tokens.rs:142-159, the loop over the characters of a digit-led
    segment with [collected_digits] and [collected_letters], and the final flush *)
Fixpoint split_digit_word (cs digits letters : str) (ltokens : list sized) : list sized :=
  match cs with
  | [] => flush_digits (flush_letters ltokens letters) digits
  | ch :: cs' =>
      if is_ascii_digit ch then
        split_digit_word cs' (digits ++ [ch]) [] (flush_letters ltokens letters)
      else if u_alphabetic ch then
        split_digit_word cs' [] (letters ++ [ch]) (flush_digits ltokens digits)
      else
        split_digit_word cs' [] []
          (flush_digits (flush_letters ltokens letters) digits
             ++ [(LText [ch] PUNC, get_text_size [ch])])
  end.

(** src/create_tokens.rs:100-203, one segment of the fold.  [.next().unwrap()]
    at line 105 cannot fail as segments are not empty; the model would panic. *)
Definition tokens_of_segment (ltokens : list sized) (unicode_word : str) : res (list sized) :=
  match unicode_word with
  | [] => Panic PIndex
  | c :: _ =>
      if is_ascii_digit c then
        if str_is_ascii unicode_word then Ok (split_digit_word unicode_word [] [] ltokens)
        else Panic PNonAsciiDigitWord
      else
        Ok (ltokens ++ [(LText unicode_word (get_unicode_word_tag unicode_word),
                         get_text_size unicode_word)])
  end.

(** src/create_tokens.rs:93-204 [create_tokens_for_string] *)
Definition create_tokens_for_string (input : str) : res (list sized) :=
  foldM tokens_of_segment (u_words input) [].

End Splitter.

Context {U : UserTypes}.

(** src/create_tokens.rs:7-20 [enum InputToken] *)
Inductive InputToken : Type :=
| InText (text : str) (ats : list AnyAttribute)
| InCustom (size : N) (ats : list AnyAttribute).

(** src/create_tokens.rs:31-36 [InputToken::add_attr] *)
Definition input_add_attr (it : InputToken) (t : ty) (v : den t) : InputToken :=
  match it with
  | InText text ats => InText text (ats ++ [any_attribute_new t v])
  | InCustom size ats => InCustom size (ats ++ [any_attribute_new t v])
  end.

(** src/create_tokens.rs:56-61, the tokens of one input token *)
Definition input_ltokens (get_text_size : str -> N) (it : InputToken) : res (list sized) :=
  match it with
  | InText text _ => create_tokens_for_string get_text_size text
  | InCustom size _ => Ok [(LValue, size)]
  end.

(** the attributes of an input token, src/create_tokens.rs:57-60 *)
Definition input_attrs (it : InputToken) : list AnyAttribute :=
  match it with InText _ ats => ats | InCustom _ ats => ats end.

(** src/create_tokens.rs:68-78, pushing one sized token; the state is
    ([lltokens], [current_size]) *)
Definition push_lltoken (tg : Target) (st : list LLToken * N) (x : sized)
  : res (list LLToken * N) :=
  let '(lltokens, current_size) := st in
  let '(ltoken, size) := x in
  next_size <- add_usize tg current_size size;;
  Ok (lltokens ++ [mkLLToken (length lltokens) current_size next_size ltoken], next_size).

(** Loop state of src/create_tokens.rs:52-54 *)
Record CreateState : Type := mkCS {
  cs_attrs : list (nat * nat * list AnyAttribute);
  cs_tokens : list LLToken;
  cs_size : N;
}.

(** src/create_tokens.rs:56-82, one input token *)
Definition create_step (tg : Target) (get_text_size : str -> N) (st : CreateState)
    (it : InputToken) : res CreateState :=
  ltokens <- input_ltokens get_text_size it;;
  match ltokens with
  | [] => Panic PEmptyText
  | _ :: _ =>
      let from_idx := length (cs_tokens st) in
      '(toks, size) <- foldM (push_lltoken tg) ltokens (cs_tokens st, cs_size st);;
      to_idx <- sub_usize (length toks) 1;;
      Ok (mkCS (cs_attrs st ++ [(from_idx, to_idx, input_attrs it)]) toks size)
  end.

(** src/create_tokens.rs:48-90 [create_line_from_input_tokens] *)
Definition create_line_from_input_tokens (tg : Target) (input : list InputToken)
    (get_text_size : str -> N) : res LLLine :=
  st <- foldM (create_step tg get_text_size) input (mkCS [] [] 0%N);;
  l <- line_new (cs_tokens st);;
  foldM (fun l x => let '(s, e, ats) := x in add_any_attrs l s e ats) (cs_attrs st) l.

(** src/create_tokens.rs:41-46 [create_tokens] (deprecated alias) *)
Definition create_tokens (tg : Target) (input : list InputToken) (get_text_size : str -> N)
  : res LLLine := create_line_from_input_tokens tg input get_text_size.

(** src/lib.rs:23-26 [create_line_from_string] *)
Definition create_line_from_string (tg : Target) (s : str) : res LLLine :=
  create_line_from_input_tokens tg [InText s []] str_len.

End Tokens.
