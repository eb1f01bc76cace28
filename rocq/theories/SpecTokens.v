(** Specification vocabulary for line creation, and histories of lines. *)

From Verif Require Export Spec ModelTokens ModelSize.

(** The ten ASCII digits (the standard library's [char::is_ascii_digit] is
    [is_ascii_digit] in the model). *)
Definition decimal_digit (c : char) : bool :=
  existsb (N.eqb c) [48; 49; 50; 51; 52; 53; 54; 55; 56; 57]%N.

Section SpecTokens.
Context {UC : Unicode} {U : UserTypes}.

(** What the word segmenter must satisfy: it only cuts its input. *)
Record SegmenterLaws : Prop := {
  seg_concat : forall s, concat (u_words s) = s;
  seg_nonempty : forall s w, In w (u_words s) -> w <> [];
}.

(** What the character tables must satisfy. *)
Record CharLaws : Prop := {
  digit_not_alphabetic : forall c, decimal_digit c = true -> u_alphabetic c = false;
  digit_not_whitespace : forall c, decimal_digit c = true -> u_whitespace c = false;
}.

(** Attributes can only be made by [AnyAttribute::new]: the fields are private
    (src/type_bucket.rs:15). *)
Definition wf_attribute (a : AnyAttribute) : Prop := exists t v, a = any_attribute_new t v.
Definition wf_input (it : InputToken) : Prop := Forall wf_attribute (input_attrs it).

(** Text of a token ([[]] for a value token). *)
Definition ltext (t : LToken) : str := match t with LText s _ => s | LValue => [] end.

(** The tokens [group] are a faithful cut of the input token [it]. *)
Definition cut_of (it : InputToken) (group : list LToken) : Prop :=
  match it with
  | InText text _ =>
      group <> [] /\ Forall (fun t => exists s tag, t = LText s tag /\ s <> []) group
      /\ concat (map ltext group) = text
  | InCustom _ _ => group = [LValue]
  end.

(** The texts among tokens, and their sizes. *)
Definition words_of : list LToken -> list str :=
  filter_map (fun t => match t with LText s _ => Some s | LValue => None end).
Definition text_sizes : list (LToken * N) -> list N :=
  filter_map (fun p => match fst p with LText _ _ => Some (snd p) | LValue => None end).

(** The size of a token is the caller's size of its text, or the declared size. *)
Definition sized_by (sz : str -> N) (it : InputToken) (group : list (LToken * N)) : Prop :=
  match it with
  | InText _ _ => Forall (fun p => snd p = sz (ltext (fst p))) group
  | InCustom size _ => map snd group = [size]
  end.

(** Laying out sized tokens one after the other, adding positions with [add]. *)
Fixpoint layout_by (add : N -> N -> N) (i : nat) (p : N) (xs : list (LToken * N)) : list LLToken :=
  match xs with
  | [] => []
  | (t, n) :: xs' => mkLLToken i p (add p n) t :: layout_by add (S i) (add p n) xs'
  end.

(** ... exactly, and modulo 2^bits. *)
Definition layout : list (LToken * N) -> list LLToken := layout_by N.add 0 0%N.
Definition layout_mod (M : N) : list (LToken * N) -> list LLToken :=
  layout_by (fun a b => (a + b) mod M)%N 0 0%N.

Fixpoint total (xs : list (LToken * N)) : N :=
  match xs with [] => 0%N | (_, n) :: xs' => (n + total xs')%N end.

(** The attributes a token gets from its own text: its character if it has
    exactly one, and its tag. *)
Definition token_entries (i : nat) (t : LToken) : list entry :=
  match t with
  | LText s tag =>
      match s with
      | [c] => [((i, i), mkany TChar c); ((i, i), mkany TTextTag tag)]
      | _ => [((i, i), mkany TTextTag tag)]
      end
  | LValue => []
  end.

Fixpoint tokens_log (i : nat) (ts : list LToken) : list entry :=
  match ts with [] => [] | t :: ts' => token_entries i t ++ tokens_log (S i) ts' end.

(** The attributes given with the input tokens, each on the tokens of its group. *)
Fixpoint input_log (i : nat) (groups : list (list LToken)) (input : list InputToken) : list entry :=
  match groups, input with
  | g :: groups', it :: input' =>
      map (fun a => ((i, i + length g - 1), aa_value a)) (input_attrs it)
      ++ input_log (i + length g) groups' input'
  | _, _ => []
  end.

Definition creation_log (groups : list (list LToken)) (input : list InputToken) : list entry :=
  tokens_log 0 (concat groups) ++ input_log 0 groups input.

(** A piece of a digit-led segment: a run of digits, a run of letters, or one
    other character. *)
Definition good_piece (p : str * TextTag) : Prop :=
  match snd p with
  | NATN => fst p <> [] /\ Forall (fun c => decimal_digit c = true) (fst p)
  | WORD => fst p <> [] /\ Forall (fun c => decimal_digit c = false /\ u_alphabetic c = true) (fst p)
  | PUNC => exists c, fst p = [c] /\ decimal_digit c = false /\ u_alphabetic c = false
  | _ => False
  end.

(** No two neighbouring numbers, no two neighbouring letter runs. *)
Fixpoint maximal (ps : list (str * TextTag)) : Prop :=
  match ps with
  | p :: ((q :: _) as ps') => (snd p = snd q -> snd p = PUNC) /\ maximal ps'
  | _ => True
  end.

(** A segment the tokenizer rejects: starts with an ASCII digit, not all ASCII. *)
Definition rejected_segment (w : str) : Prop :=
  exists c w', w = c :: w' /\ decimal_digit c = true /\ exists c', In c' w /\ (128 <= c')%N.

(** UTF-8 encoding. *)
Definition utf8_char (c : char) : list N :=
  if (c <? 128)%N then [c]
  else if (c <? 2048)%N then [192 + c / 64; 128 + c mod 64]%N
  else if (c <? 65536)%N then [224 + c / 4096; 128 + (c / 64) mod 64; 128 + c mod 64]%N
  else [240 + c / 262144; 128 + (c / 4096) mod 64; 128 + (c / 64) mod 64; 128 + c mod 64]%N.
Definition utf8 (s : str) : list N := flat_map utf8_char s.

(** The documented tag of a segment that does not start with an ASCII digit
    (src/ll_line.rs:20-36, src/create_tokens/get_word_tag.rs:3,27). *)
Definition all_space (s : str) : Prop := Forall (fun c => u_whitespace c = true) s.
Definition documented_punctuation (c : char) : Prop :=
  In c [44 (* , *); 46 (* . *); 33 (* ! *); 59 (* ; *); 58 (* : *); 63 (* ? *); 39 (* apostrophe *);
        34 (* double quote *)]%N.
Definition one_punctuation (s : str) : Prop := exists c, s = [c] /\ documented_punctuation c.
Definition word_like (s : str) : Prop :=
  exists c s', s = c :: s' /\ u_alphabetic c = true /\
    Forall (fun c => u_alphabetic c = true \/ In c [39 (* apostrophe *); 45 (* hyphen *); 8211 (* en dash *)]%N) s'.
Definition documented_tag (s : str) (tag : TextTag) : Prop :=
  (tag = SPACE <-> all_space s)
  /\ (tag = PUNC <-> ~ all_space s /\ one_punctuation s)
  /\ (tag = WORD <-> ~ all_space s /\ ~ one_punctuation s /\ word_like s)
  /\ (tag = SYMB <-> ~ all_space s /\ ~ one_punctuation s /\ ~ word_like s)
  /\ tag <> NATN.

(** The pieces a segment is cut into. *)
Definition segment_cut (w : str) (ps : list (str * TextTag)) : Prop :=
  exists c w', w = c :: w' /\
    ((decimal_digit c = true /\ Forall good_piece ps /\ maximal ps /\ concat (map fst ps) = w)
     \/ (decimal_digit c = false /\ exists tag, ps = [(w, tag)] /\ documented_tag w tag)).

(** Input tokens the tokenizer must accept. *)
Definition acceptable (it : InputToken) : Prop :=
  match it with
  | InText text _ => text <> [] /\ forall w, In w (u_words text) -> ~ rejected_segment w
  | InCustom _ _ => True
  end.

(** No attribute of type [t] among the attributes of the input. *)
Definition none_of (t : ty) (input : list InputToken) : Prop :=
  forall it a, In it input -> In a (input_attrs it) -> downcast t (aa_value a) = None.

(** What a token contributes to the query of a type. *)
Definition token_rows {A} (f : LToken -> option A) (i : nat) (ts : list LToken)
  : list (LRange * str * list A) :=
  filter_map (fun '(k, t) => option_map (fun v => ((k, k), ltext t, [v])) (f t)) (enumerate_from i ts).

(** The tag of a text token; the character of a one-character token. *)
Definition tag_of (t : LToken) : option TextTag :=
  match t with LText _ tag => Some tag | LValue => None end.

Definition char_of (t : LToken) : option char :=
  match t with LText [c] _ => Some c | _ => None end.

(** [History l lg]: the line [l] was created, with a pure size function or with
    one that has a memory, and then processed by any number of runs of any
    resolvers, and [lg] lists everything assigned on the way.  (Which
    tokens [groups] come from which input is what the tokenizer says; that it is
    a faithful cut is a theorem, see C01 and C09.) *)
Inductive History : LLLine -> list entry -> Prop :=
| H_create tg sz input groups l :
    Forall wf_input input ->
    create_line_from_input_tokens tg input sz = Ok l ->
    Forall2 (fun it g => input_ltokens sz it = Ok g) input groups ->
    History l (creation_log (map (map fst) groups) input)
| H_create_calls M (size : str -> mem M N) st st' tg input groups l :
    Forall wf_input input ->
    mem_create_line size tg input st = (st', Ok l) ->
    Forall2 (fun it g => input_ltokens (fun _ => 0%N) it = Ok g) input groups ->
    History l (creation_log (map (map fst) groups) input)
| H_run l lg t id (r : Resolver t) g l' :
    History l lg ->
    ll_tokens l <> [] ->
    r (whole id l) = Ok g ->
    run id l r = Ok l' ->
    History l' (lg ++ map assignment_entry (go_assignments g))
| H_run_empty l lg t id (r : Resolver t) l' :
    History l lg ->
    ll_tokens l = [] ->
    run id l r = Ok l' ->
    History l' lg.

End SpecTokens.
