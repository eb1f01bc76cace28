(** Specification vocabulary for the size of results (C97). *)

From Verif Require Export SpecSeam SpecPipe SpecOrder.

Local Open Scope list_scope.

Section SpecBound.
Context {UC : Unicode} {U : UserTypes}.

(** The characters of a text input; a value input counts as one. *)
Definition chars_in (it : InputToken) : nat := match it with InText text _ => length text | InCustom _ _ => 1 end.

(** How many tokens are numbers. *)
Definition number_count (toks : list LLToken) : nat :=
  length (filter (fun tok => match token tok with LText _ NATN => true | _ => false end) toks).

(** The characters of all texts reported. *)
Definition reported_chars {V} (rows : list (LRange * str * list V)) : nat := list_sum (map (fun x => length (snd (fst x))) rows).
(** The characters of a line. *)
Definition line_chars (l : LLLine) : nat := list_sum (map (fun tok => length (ltext (token tok))) (ll_tokens l)).

(** How many steps of a pipeline assign values of type [t]. *)
Definition times_written (t : ty) (steps : list (N * step)) : nat := count_occ ty_eq_dec (map (fun s => writes (Lib (snd s))) steps) t.

End SpecBound.
