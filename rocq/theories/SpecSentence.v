(** Sentences as they are written, and the clauses they have (C91). *)

From Verif Require Export SpecChars SpecScan.

Local Open Scope list_scope.

(** A part of a sentence: perhaps a keyword in front, words, perhaps a punctuation mark behind. *)
Record Saying : Type := mkSaying {
  opener : option (str * ClauseKeyword);
  said_words : list str;
  closing : option char;
}.

(** With a space between two words. *)
Fixpoint spaced (ws : list str) : str :=
  match ws with
  | [] => []
  | [w] => w
  | w :: ws => w ++ 32%N :: spaced ws
  end.

Definition opening (p : Saying) : str := match opener p with Some (w, _) => w ++ [32%N] | None => [] end.
Definition closing_mark (p : Saying) : str := match closing p with Some c => [c] | None => [] end.
Definition written_part (p : Saying) : str := opening p ++ spaced (said_words p) ++ closing_mark p.
Definition sentence (ps : list Saying) : str := spaced (map written_part ps).

Section Sentence.
Context {UC : Unicode} (colon : bool) (r : ClauseKeywordResolver).

(** Letters, perhaps with apostrophes and periods between them, or digits. *)
Definition proper_word (w : str) : Prop := dotted colon w \/ (w <> [] /\ Forall ascii_digit w).
Definition no_keyword (w : str) : Prop := forall k, ~ classified r w k.

Definition proper_part (p : Saying) : Prop :=
  (forall w k, opener p = Some (w, k) -> proper_word w /\ classified r w k)
  /\ said_words p <> [] /\ Forall (fun w => proper_word w /\ no_keyword w) (said_words p)
  /\ (forall c, closing p = Some c -> documented_punctuation c /\ no_keyword [c]).

(** Between two parts is a punctuation mark or a keyword. *)
Definition proper_sentence (ps : list Saying) : Prop :=
  ps <> [] /\ Forall proper_part ps
  /\ forall ps1 p q ps2, ps = ps1 ++ p :: q :: ps2 -> closing p <> None \/ opener q <> None.
End Sentence.

(** The kind of a part: whether it is the only one, whether a condition came earlier. *)
Definition said_kind (sole earlier : bool) (p : Saying) : Clause :=
  match opener p with
  | Some (_, KConditionStart) => Condition
  | Some (_, KThen) => if sole then Independent else TrailingEffect
  | _ => if sole then Independent else if earlier then TrailingEffect else LeadingEffect
  end.
Definition is_condition_part (p : Saying) : bool := match opener p with Some (_, KConditionStart) => true | _ => false end.

(** The clauses: what stands before, the words, the kind. *)
Fixpoint said_from (sole earlier : bool) (before : str) (ps : list Saying) : list (str * str * Clause) :=
  match ps with
  | [] => []
  | p :: ps =>
    (before ++ opening p, spaced (said_words p), said_kind sole earlier p)
    :: said_from sole (earlier || is_condition_part p) (before ++ written_part p ++ [32%N]) ps
  end.
Definition clauses_said (ps : list Saying) : list (str * str * Clause) := said_from (Nat.eqb (length ps) 1) false [] ps.

Section Rows.
Context {UC : Unicode} {U : UserTypes}.
Definition clause_on (l : LLLine) (x : str * str * Clause) (row : LRange * str * list Clause) : Prop :=
  let '(b, t, k) := x in let '((i, j), text, ks) := row in
  text = t /\ ks = [k] /\ i <= j < length (ll_tokens l)
  /\ concat (firstn i (token_texts l)) = b /\ concat (firstn (S j) (token_texts l)) = b ++ t.
End Rows.
