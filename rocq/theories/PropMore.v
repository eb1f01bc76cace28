(** Further properties, each with a concrete case: C06, C43. *)

From Verif Require Export PropRes ThmMore.

Local Open Scope string_scope.
Local Open Scope list_scope.

(** ** C06 Which tokens are tagged PUNC *)
Theorem C06_exact {UC : Unicode} {U : UserTypes} :
  forall tg sz input l tok s,
    Forall wf_input input -> create_line_from_input_tokens tg input sz = Ok l ->
    In tok (ll_tokens l) -> token tok = LText s PUNC ->
    exists c, s = [c]
      /\ (documented_punctuation c
          \/ (decimal_digit c = false /\ u_alphabetic c = false
              /\ exists text ats d w, In (InText text ats) input /\ In (d :: w) (u_words text)
                   /\ decimal_digit d = true /\ In c w)).
Proof. exact thm_C06_exact. Qed.
Theorem C06_documented_partial {UC : Unicode} {U : UserTypes} :
  forall tg sz input l tok s,
    Forall wf_input input -> create_line_from_input_tokens tg input sz = Ok l ->
    (forall text ats d w, In (InText text ats) input -> In (d :: w) (u_words text) -> decimal_digit d = false) ->
    In tok (ll_tokens l) -> token tok = LText s PUNC -> one_punctuation s.
Proof. exact thm_C06_documented_partial. Qed.
(** "a, 1_0": the comma is documented punctuation, the underscore is in a digit-led segment. *)
Definition in6 : list InputToken := [InText (of_string "a, 1_0") []].
Definition line6 : LLLine := Eval vm_compute in line_from in6.
Definition in6b : list InputToken := [InText (of_string "a, b") []].
Definition line6b : LLLine := Eval vm_compute in line_from in6b.
Example C06_case :
  Forall wf_input in6 /\ create_line_from_input_tokens tg64 in6 str_len = Ok line6
  /\ (exists tok, In tok (ll_tokens line6) /\ token tok = LText (of_string ",") PUNC)
  /\ (exists tok, In tok (ll_tokens line6) /\ token tok = LText (of_string "_") PUNC)
  /\ Forall wf_input in6b /\ create_line_from_input_tokens tg64 in6b str_len = Ok line6b
  /\ (forall text ats d w, In (InText text ats) in6b -> In (d :: w) (u_words text) -> decimal_digit d = false)
  /\ (exists tok, In tok (ll_tokens line6b) /\ token tok = LText (of_string ",") PUNC).
Proof.
  conj; [wf_inputs|vm_compute; reflexivity| | |wf_inputs|vm_compute; reflexivity| |].
  - eexists; split; [unfold line6; simpl; right; left; reflexivity|reflexivity].
  - eexists; split; [unfold line6; simpl; right; right; right; right; left; reflexivity|reflexivity].
  - intros text ats d w [E|[]] Hin. inversion E; subst. vm_compute in Hin.
    repeat (destruct Hin as [Hin|Hin]; [inversion Hin; reflexivity|]). easy.
  - eexists; split; [unfold line6b; simpl; right; left; reflexivity|reflexivity].
Qed.

(** ** C43 Groups without a fraction, and the french preset *)
Theorem C43_grouped_integer {UC : Unicode} {U : UserTypes} :
  forall parse r id l lg gs d,
    History l lg -> grouped_integer l lg r gs -> parse (concat gs) = Some d ->
    amounts l lg r parse 0 [((0, 2 * length gs - 2), d)]
    /\ runs_to id l lg (amount_go parse r) [((0, 2 * length gs - 2), d)].
Proof. exact thm_C43_grouped_integer. Qed.
Theorem C43_french_integers {UC : Unicode} {U : UserTypes} :
  forall l lg s e u text,
    History l lg -> plain TTextTag l lg -> amount_at l lg amount_french s e u text -> all_digits text.
Proof. exact thm_C43_french_integers. Qed.
Definition in43b : list InputToken := [InText (of_string "1.234'567") []].
Definition line43b : LLLine := Eval vm_compute in line_from in43b.
Definition lg43b : list entry := Eval vm_compute in log_from in43b.
Lemma history43b : History line43b lg43b.
Proof. apply (history_from in43b); [wf_inputs|vm_compute; reflexivity|vm_compute; reflexivity]. Qed.
Lemma grouped43b : grouped_integer line43b lg43b amount_french (map of_string ["1"; "234"; "567"]).
Proof.
  unfold grouped_integer. conj.
  - discriminate.
  - reflexivity.
  - intros i g Hg. destruct i as [|[|[|i]]]; simpl in Hg; inversion Hg; subst; try amount_fact. destruct i; discriminate.
  - intros i Hi. simpl in Hi. destruct i as [|[|i]]; [amount_fact|amount_fact|lia].
Qed.
Example C43_integer_case :
  History line43b lg43b /\ grouped_integer line43b lg43b amount_french (map of_string ["1"; "234"; "567"])
  /\ parse_decimal (concat (map of_string ["1"; "234"; "567"])) = Some (mkDecimal 1234567 0)
  /\ plain TTextTag line43b lg43b
  /\ exists s e u, amount_at line43b lg43b amount_french s e u (of_string "1234567").
Proof.
  conj; [exact history43b|exact grouped43b|vm_compute; reflexivity|vm_compute; reflexivity|].
  destruct (C43_grouped_integer parse_decimal amount_french 1 line43b lg43b _ (mkDecimal 1234567 0) history43b grouped43b eq_refl) as [HA _].
  inversion HA as [|k s e u text d out HF HA1 HP HA2]; subst. exists 0, 4, 4.
  change (of_string "1234567") with ((of_string "1" ++ of_string "234") ++ of_string "567").
  apply A_groups.
  - apply (G_more line43b lg43b amount_french 0 2); [apply (G_more line43b lg43b amount_french 0 0); [apply G_one|..]|..]; amount_fact.
  - intros C. vm_compute in C. lia.
  - amount_fact.
  - amount_fact.
  - amount_fact.
Qed.
