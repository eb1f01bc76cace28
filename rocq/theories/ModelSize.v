(** Creation of a line with a size function that has memory or panics: [get_text_size] is an [Fn(&str) -> usize]
    of the caller (src/create_tokens.rs:48-50).  The functions of ModelTokens.v once more, with the
    calls in the order in which the code makes them. *)

From Verif Require Export ModelMem ModelTokens.

(** tokens with sizes: src/create_tokens.rs:94 *)
Local Notation sized := (prod LToken N).

Section Size.
Context {UC : Unicode} {U : UserTypes} {M : Type}.
Context (get_text_size : str -> mem M N).

(** src/create_tokens.rs:118-128 [insert_collected_digits!] *)
Definition mem_flush_digits (ltokens : list sized) (digits : str) : mem M (list sized) :=
  match digits with
  | [] => lift (Ok ltokens)
  | _ :: _ => size <~ get_text_size digits;; lift (Ok (ltokens ++ [(LText digits NATN, size)]))
  end.

(** src/create_tokens.rs:130-140 [insert_collected_letters!] *)
Definition mem_flush_letters (ltokens : list sized) (letters : str) : mem M (list sized) :=
  match letters with
  | [] => lift (Ok ltokens)
  | _ :: _ => size <~ get_text_size letters;; lift (Ok (ltokens ++ [(LText letters WORD, size)]))
  end.

(** src/create_tokens.rs:142-159, the loop over the characters of a digit-led segment *)
Fixpoint mem_split_digit_word (cs digits letters : str) (ltokens : list sized) : mem M (list sized) :=
  match cs with
  | [] => ltokens1 <~ mem_flush_letters ltokens letters;; mem_flush_digits ltokens1 digits
  | ch :: cs' =>
      if is_ascii_digit ch then
        ltokens1 <~ mem_flush_letters ltokens letters;; mem_split_digit_word cs' (digits ++ [ch]) [] ltokens1
      else if u_alphabetic ch then
        ltokens1 <~ mem_flush_digits ltokens digits;; mem_split_digit_word cs' [] (letters ++ [ch]) ltokens1
      else
        ltokens1 <~ mem_flush_letters ltokens letters;;
        ltokens2 <~ mem_flush_digits ltokens1 digits;;
        size <~ get_text_size [ch];;
        mem_split_digit_word cs' [] [] (ltokens2 ++ [(LText [ch] PUNC, size)])
  end.

(** src/create_tokens.rs:100-203, one segment of the fold *)
Definition mem_tokens_of_segment (ltokens : list sized) (unicode_word : str) : mem M (list sized) :=
  match unicode_word with
  | [] => lift (Panic PIndex)
  | c :: _ =>
      if is_ascii_digit c then
        if str_is_ascii unicode_word then mem_split_digit_word unicode_word [] [] ltokens
        else lift (Panic PNonAsciiDigitWord)
      else
        size <~ get_text_size unicode_word;;
        lift (Ok (ltokens ++ [(LText unicode_word (get_unicode_word_tag unicode_word), size)]))
  end.

(** src/create_tokens.rs:93-204 [create_tokens_for_string] *)
Definition mem_create_tokens_for_string (input : str) : mem M (list sized) :=
  mem_foldM mem_tokens_of_segment (u_words input) [].

(** src/create_tokens.rs:56-61, the tokens of one input token *)
Definition mem_input_ltokens (it : InputToken) : mem M (list sized) :=
  match it with
  | InText text _ => mem_create_tokens_for_string text
  | InCustom size _ => lift (Ok [(LValue, size)])
  end.

(** src/create_tokens.rs:56-82, one input token: [map] is lazy, so its sizes are asked before its
    tokens are laid out, and after those of the input tokens before it are *)
Definition mem_create_step (tg : Target) (cs : CreateState) (it : InputToken) : mem M CreateState :=
  ltokens <~ mem_input_ltokens it;;
  lift (match ltokens with
        | [] => Panic PEmptyText
        | _ :: _ =>
            let from_idx := length (cs_tokens cs) in
            '(toks, size) <- foldM (push_lltoken tg) ltokens (cs_tokens cs, cs_size cs);;
            to_idx <- sub_usize (length toks) 1;;
            Ok (mkCS (cs_attrs cs ++ [(from_idx, to_idx, input_attrs it)]) toks size)
        end).

(** src/create_tokens.rs:48-90 [create_line_from_input_tokens] *)
Definition mem_create_line (tg : Target) (input : list InputToken) : mem M LLLine :=
  cs <~ mem_foldM (mem_create_step tg) input (mkCS [] [] 0%N);;
  lift (l <- line_new (cs_tokens cs);;
        foldM (fun l x => let '(s, e, ats) := x in add_any_attrs l s e ats) (cs_attrs cs) l).

End Size.
