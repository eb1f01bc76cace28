(** Proofs about the indented form of printed values (C87). *)

From Coq Require Import Strings.String Strings.Ascii.
From Verif Require Export ThmPrint SpecIndent.
Local Open Scope string_scope.
Local Open Scope list_scope.

Lemma lit_literal s : lit s = literal s.
Proof. unfold literal. induction s as [|a s IH]; cbn; [reflexivity|]. now rewrite IH. Qed.

(** ** Lines *)
Definition clear_lines (ls : lines) : Prop := Forall (fun x => ~ In 10%N (snd x)) ls.
Definition ended (ls : lines) : str := flat_map (fun x => shown_line x ++ [10%N]) ls.

Lemma shown_zero s : shown_line (0, s) = s.
Proof. reflexivity. Qed.

Lemma ended_text ls : ls <> [] -> ended ls = text_of_lines ls ++ [10%N].
Proof.
  induction ls as [|x ls IH]; intros H; [easy|]. unfold ended in *. cbn [flat_map].
  destruct ls as [|y ls]; [cbn; now rewrite app_nil_r|]. rewrite IH by discriminate.
  cbn [text_of_lines]. now rewrite <- !app_assoc.
Qed.

Lemma text_wrapped x ls y : text_of_lines (x :: ls ++ [y]) = shown_line x ++ [10%N] ++ ended ls ++ shown_line y.
Proof.
  revert x. induction ls as [|z ls IH]; intros x; [reflexivity|].
  transitivity (shown_line x ++ [10%N] ++ text_of_lines (z :: ls ++ [y])); [reflexivity|].
  rewrite IH. unfold ended. cbn [flat_map]. now rewrite <- !app_assoc.
Qed.

Lemma after_last_text u ls : ls <> [] -> text_of_lines (after_last u ls) = text_of_lines ls ++ u.
Proof.
  induction ls as [|[d s] ls IH]; intros H; [easy|]. destruct ls as [|y ls].
  - cbn. unfold shown_line. cbn [fst snd]. now rewrite app_assoc.
  - change (after_last u ((d, s) :: y :: ls)) with ((d, s) :: after_last u (y :: ls)).
    assert (E : exists z zs, after_last u (y :: ls) = z :: zs) by (destruct y, ls; cbn; eauto).
    destruct E as (z & zs & E). assert (IH' := IH ltac:(discriminate)). rewrite E in *.
    change (text_of_lines ((d, s) :: z :: zs)) with (shown_line (d, s) ++ [10%N] ++ text_of_lines (z :: zs)).
    rewrite IH'. change (text_of_lines ((d, s) :: y :: ls)) with (shown_line (d, s) ++ [10%N] ++ text_of_lines (y :: ls)).
    now rewrite <- !app_assoc.
Qed.

Lemma after_last_nonempty u ls : ls <> [] -> after_last u ls <> [].
Proof. destruct ls as [|[d s] [|y ls]]; cbn; easy. Qed.

Lemma after_last_clear u ls : ~ In 10%N u -> clear_lines ls -> clear_lines (after_last u ls).
Proof.
  intros Hu. induction ls as [|[d s] ls IH]; intros H; [constructor|]. apply Forall_cons_iff in H as [H1 H2].
  destruct ls as [|y ls].
  - cbn. repeat constructor. cbn [snd] in *. rewrite in_app_iff. tauto.
  - change (after_last u ((d, s) :: y :: ls)) with ((d, s) :: after_last u (y :: ls)). constructor; auto. now apply IH.
Qed.

Lemma before_first_clear u ls : ~ In 10%N u -> clear_lines ls -> clear_lines (before_first u ls).
Proof.
  intros Hu H. destruct H as [|[d s] ls H1 H2]; [constructor|]. constructor; auto. cbn [snd] in *. rewrite in_app_iff. tauto.
Qed.

Lemma deeper_clear ls : clear_lines ls -> clear_lines (deeper ls).
Proof. intros H. unfold clear_lines, deeper. rewrite Forall_map. exact H. Qed.

(** The first line is not indented. *)
Definition flush_left (ls : lines) : Prop := exists s ls', ls = (0, s) :: ls'.

Lemma lines_of_text_nonempty s : exists l ls, lines_of_text s = l :: ls.
Proof.
  induction s as [|c s (l & ls & IH)]; cbn; [eauto|]. destruct (c =? 10)%N; [eauto|]. rewrite IH. eauto.
Qed.

Lemma on_lines_flush f : flush_left (on_lines f).
Proof.
  destruct f as [text|name [|x fields]|name [|x parts]|[|x items]]; try (eexists; eexists; reflexivity).
  unfold flush_left. cbn [on_lines]. destruct (lines_of_text_nonempty text) as (l & ls & ->). cbn. eauto.
Qed.

Lemma flush_nonempty ls : flush_left ls -> ls <> [].
Proof. intros (s & ls' & ->). discriminate. Qed.

Lemma after_last_flush u ls : flush_left ls -> flush_left (after_last u ls).
Proof. intros (s & [|y ls'] & ->); cbn; unfold flush_left; eauto. Qed.

Lemma before_first_text u ls : flush_left ls -> text_of_lines (before_first u ls) = u ++ text_of_lines ls.
Proof. intros (s & [|y ls'] & ->); cbn; unfold shown_line; cbn [fst snd Nat.mul repeat app]; [reflexivity|]. now rewrite <- app_assoc. Qed.

Lemma before_first_nonempty u ls : ls <> [] -> before_first u ls <> [].
Proof. destruct ls as [|[d s] ls]; easy. Qed.

(** ** Padding *)
Lemma pad_false s r : ~ In 10%N s -> pad false (s ++ [10%N] ++ r) = s ++ [10%N] ++ pad true r.
Proof.
  induction s as [|c s IH]; intros H; [reflexivity|]. cbn [app pad]. cbn [In] in H.
  rewrite (proj2 (N.eqb_neq c 10)) by (intros ->; tauto). f_equal. apply IH. tauto.
Qed.

Lemma pad_line s r : ~ In 10%N s -> pad true (s ++ [10%N] ++ r) = repeat 32%N 4 ++ s ++ [10%N] ++ pad true r.
Proof.
  intros H. destruct s as [|c s]; [reflexivity|]. cbn [app pad]. cbn [In] in H.
  rewrite (proj2 (N.eqb_neq c 10)) by (intros ->; tauto).
  change (lit "    " ++ c :: pad false (s ++ [10%N] ++ r) = repeat 32%N 4 ++ c :: s ++ [10%N] ++ pad true r).
  rewrite pad_false by tauto. reflexivity.
Qed.

Lemma shown_clear x : ~ In 10%N (snd x) -> ~ In 10%N (shown_line x).
Proof. intros H K. unfold shown_line in K. apply in_app_or in K as [K|K]; [|tauto]. apply repeat_spec in K. discriminate. Qed.

Lemma pad_ended ls : clear_lines ls -> pad true (ended ls) = ended (deeper ls).
Proof.
  induction 1 as [|x ls H1 H2 IH]; [reflexivity|]. unfold ended in *. cbn [flat_map deeper map].
  rewrite <- app_assoc. rewrite pad_line by now apply shown_clear. rewrite IH.
  unfold shown_line. cbn [fst snd]. rewrite <- !app_assoc.
  assert (E : repeat 32%N (4 * S (fst x)) = repeat 32%N 4 ++ repeat 32%N (4 * fst x))
    by (rewrite <- repeat_app; f_equal; lia).
  etransitivity; [|apply (f_equal (fun u => u ++ _) (eq_sym E))]. rewrite <- app_assoc. reflexivity.
Qed.

Lemma pad_inner ls : ls <> [] -> clear_lines ls ->
  pad true (text_of_lines ls ++ lit "," ++ line_break) = ended (deeper (after_last (literal ",") ls)).
Proof.
  intros HN HC. rewrite <- pad_ended by (apply after_last_clear; auto; cbn; intuition discriminate).
  rewrite ended_text by now apply after_last_nonempty. rewrite after_last_text by auto. now rewrite <- app_assoc.
Qed.

Lemma pad_field name ls : flush_left ls -> clear_lines ls -> ~ In 10%N (literal name) ->
  pad true (lit name ++ lit ": " ++ text_of_lines ls ++ lit "," ++ line_break)
  = ended (deeper (before_first (literal name ++ literal ": ") (after_last (literal ",") ls))).
Proof.
  intros HF HC HN. rewrite <- pad_ended.
  2:{ apply before_first_clear; [rewrite in_app_iff; cbn; intuition discriminate|]. apply after_last_clear; auto. cbn. intuition discriminate. }
  rewrite ended_text by (apply before_first_nonempty, after_last_nonempty, flush_nonempty; auto).
  rewrite before_first_text by now apply after_last_flush. rewrite after_last_text by now apply flush_nonempty.
  rewrite lit_literal. now rewrite <- !app_assoc.
Qed.

Lemma ended_flat {A} (g : A -> lines) xs : ended (flat_map g xs) = flat_map (fun x => ended (g x)) xs.
Proof. induction xs as [|x xs IH]; [reflexivity|]. cbn [flat_map]. rewrite <- IH. unfold ended. apply flat_map_app. Qed.

Definition clear_name (s : string) : Prop := ~ In 10%N (literal s).

(** ** The three layouts *)
Lemma struct_lines name (fields : list (string * form)) :
  clear_name name -> Forall (fun x => clear_name (fst x) /\ clear_lines (on_lines (snd x))) fields ->
  pretty_struct name (map (fun x => (fst x, text_of_lines (on_lines (snd x)))) fields) = text_of_lines (on_lines (Fields name fields))
  /\ clear_lines (on_lines (Fields name fields)).
Proof.
  intros HN HF. destruct fields as [|x0 xs0].
  - cbn. unfold shown_line. cbn. rewrite lit_literal. split; [reflexivity|]. now repeat constructor.
  - set (fields := x0 :: xs0) in *.
    assert (E : on_lines (Fields name fields) = (0, literal name ++ literal " {")
      :: flat_map (fun x => deeper (before_first (literal (fst x) ++ literal ": ") (after_last (literal ",") (on_lines (snd x))))) fields
      ++ [(0, literal "}")]) by reflexivity.
    rewrite E. split.
    + rewrite text_wrapped, ended_flat.
      assert (P : pretty_struct name (map (fun x => (fst x, text_of_lines (on_lines (snd x)))) fields)
        = lit name ++ lit " {" ++ line_break
          ++ flat_map (fun '(field, text) => pad true (lit field ++ lit ": " ++ text ++ lit "," ++ line_break))
               (map (fun x => (fst x, text_of_lines (on_lines (snd x)))) fields) ++ lit "}") by reflexivity.
      rewrite P. clear P E. rewrite !shown_zero. rewrite lit_literal, <- !app_assoc.
      f_equal. change (lit " {") with (literal " {"). f_equal. change line_break with [10%N]. f_equal.
      change (lit "}") with (literal "}"). f_equal. clearbody fields.
      induction HF as [|x xs [H1 H2] HF IH]; [reflexivity|]. cbn [map flat_map]. rewrite IH. f_equal.
      apply pad_field; auto. apply on_lines_flush.
    + constructor; [cbn [snd]; rewrite in_app_iff; cbn; unfold clear_name in HN; intuition discriminate|].
      apply Forall_app. split; [|repeat constructor; cbn; intuition discriminate].
      clear E. clearbody fields. induction HF as [|x xs [H1 H2] HF IH]; [constructor|]. cbn [flat_map]. apply Forall_app. split; auto.
      apply deeper_clear. apply before_first_clear; [rewrite in_app_iff; unfold clear_name in H1; cbn; intuition discriminate|].
      apply after_last_clear; auto. cbn. intuition discriminate.
Qed.

Lemma inner_lines (fs : list form) : Forall (fun f => clear_lines (on_lines f)) fs ->
  flat_map (fun text => pad true (text ++ lit "," ++ line_break)) (map (fun f => text_of_lines (on_lines f)) fs)
  = ended (flat_map (fun x => deeper (after_last (literal ",") (on_lines x))) fs)
  /\ clear_lines (flat_map (fun x => deeper (after_last (literal ",") (on_lines x))) fs).
Proof.
  induction 1 as [|f fs H1 H2 [IH1 IH2]]; [split; [reflexivity|constructor]|].
  cbn [flat_map map]. split.
  - rewrite IH1. unfold ended at 2. rewrite flat_map_app. f_equal. apply pad_inner; auto. apply flush_nonempty, on_lines_flush.
  - apply Forall_app. split; auto. apply deeper_clear, after_last_clear; auto. cbn. intuition discriminate.
Qed.

Lemma tuple_lines name (parts : list form) :
  clear_name name -> Forall (fun f => clear_lines (on_lines f)) parts ->
  pretty_tuple name (map (fun f => text_of_lines (on_lines f)) parts) = text_of_lines (on_lines (Parts name parts))
  /\ clear_lines (on_lines (Parts name parts)).
Proof.
  intros HN HF. destruct parts as [|x0 xs0].
  - cbn. unfold shown_line. cbn. rewrite lit_literal. split; [reflexivity|]. now repeat constructor.
  - destruct (inner_lines _ HF) as [I1 I2].
    change (on_lines (Parts name (x0 :: xs0))) with ((0, literal name ++ literal "(")
      :: flat_map (fun x => deeper (after_last (literal ",") (on_lines x))) (x0 :: xs0) ++ [(0, literal ")")]).
    change (pretty_tuple name (map (fun f => text_of_lines (on_lines f)) (x0 :: xs0)))
      with (lit name ++ lit "(" ++ line_break ++ flat_map (fun text => pad true (text ++ lit "," ++ line_break))
              (map (fun f => text_of_lines (on_lines f)) (x0 :: xs0)) ++ lit ")").
    rewrite I1. split.
    + rewrite text_wrapped. rewrite !shown_zero. rewrite lit_literal, <- !app_assoc. reflexivity.
    + constructor; [cbn [snd]; rewrite in_app_iff; cbn; unfold clear_name in HN; intuition discriminate|].
      apply Forall_app. split; auto. repeat constructor; cbn; intuition discriminate.
Qed.

Lemma slice_lines {A} (da : A -> str) (fa : A -> form) (l : list A) :
  (forall a, da a = text_of_lines (on_lines (fa a)) /\ clear_lines (on_lines (fa a))) ->
  pretty_slice da l = text_of_lines (on_lines (Items (map fa l)))
  /\ clear_lines (on_lines (Items (map fa l))).
Proof.
  intros HA. destruct l as [|a l]; [cbn; split; [reflexivity|repeat constructor; cbn; intuition discriminate]|].
  destruct (inner_lines (map fa (a :: l))) as [I1 I2]; [apply Forall_map, Forall_forall; intros; apply HA|].
  change (on_lines (Items (map fa (a :: l)))) with ((0, literal "[")
      :: flat_map (fun x => deeper (after_last (literal ",") (on_lines x))) (map fa (a :: l)) ++ [(0, literal "]")]).
  split.
  - rewrite text_wrapped, <- I1. unfold pretty_slice. change (lit "[") with (literal "[").
    rewrite !shown_zero. f_equal. change line_break with [10%N]. f_equal.
    change (lit "]") with (literal "]"). f_equal. generalize (a :: l) as xs. intros xs.
    induction xs as [|x xs IH]; [reflexivity|]. cbn [flat_map map]. rewrite IH. now rewrite (proj1 (HA x)).
  - constructor; [cbn; intuition discriminate|]. apply Forall_app. split; auto. repeat constructor; cbn; intuition discriminate.
Qed.

(** ** The library's types *)
Lemma lines_single s : ~ In 10%N s -> lines_of_text s = [s].
Proof.
  induction s as [|c s IH]; intros H; [reflexivity|]. cbn [lines_of_text]. cbn [In] in H.
  rewrite (proj2 (N.eqb_neq c 10)) by (intros ->; tauto). now rewrite IH by tauto.
Qed.
Lemma lines_clear s : Forall (fun l => ~ In 10%N l) (lines_of_text s).
Proof.
  induction s as [|c s IH]; [repeat constructor; auto|]. cbn [lines_of_text]. destruct (N.eqb_spec c 10) as [->|Hc].
  - constructor; auto.
  - destruct IH as [|l ls H1 H2]; constructor; auto. intros [K|K]; [now apply Hc|tauto].
Qed.
Lemma lines_text s : text_of_lines (map (pair 0) (lines_of_text s)) = s.
Proof.
  induction s as [|c s IH]; [reflexivity|]. cbn [lines_of_text]. destruct (lines_of_text_nonempty s) as (l & ls & E). rewrite E in *.
  destruct (N.eqb_spec c 10) as [->|Hc].
  - change (10%N :: text_of_lines (map (pair 0) (l :: ls)) = 10%N :: s). now rewrite IH.
  - destruct ls; cbn in *; unfold shown_line in *; cbn in *; now rewrite <- IH.
Qed.

Lemma simple_lines s : s = text_of_lines (on_lines (Simple s)) /\ clear_lines (on_lines (Simple s)).
Proof. cbn [on_lines]. split; [symmetry; apply lines_text|]. unfold clear_lines. rewrite Forall_map. apply lines_clear. Qed.

Lemma simple_laid {A} (d : A -> str) : laid_out (fun a => Simple (d a)) d d.
Proof. intros a. split; [reflexivity|]. apply simple_lines. Qed.

Section ThmIndent.
Context {UC : Unicode} {U : UserTypes}.

Ltac clear_lit := unfold clear_name; cbn; let H := fresh in intros H; repeat destruct H as [H|H]; try discriminate H; try exact H.

Lemma struct_laid {A} name (fields : A -> list (string * form)) (one ind : A -> str) :
  (forall a, one a = on_one_line (Fields name (fields a))) ->
  (forall a, ind a = pretty_struct name (map (fun x => (fst x, text_of_lines (on_lines (snd x)))) (fields a))) ->
  clear_name name -> (forall a, Forall (fun x => clear_name (fst x) /\ clear_lines (on_lines (snd x))) (fields a)) ->
  laid_out (fun a => Fields name (fields a)) one ind.
Proof.
  intros H1 H2 HN HF a. destruct (struct_lines name (fields a) HN (HF a)) as [E C]. split; [apply H1|]. split; [|exact C]. now rewrite H2.
Qed.

Lemma tuple_laid {A} name (parts : A -> list form) (one ind : A -> str) :
  (forall a, one a = on_one_line (Parts name (parts a))) ->
  (forall a, ind a = pretty_tuple name (map (fun f => text_of_lines (on_lines f)) (parts a))) ->
  clear_name name -> (forall a, Forall (fun f => clear_lines (on_lines f)) (parts a)) ->
  laid_out (fun a => Parts name (parts a)) one ind.
Proof.
  intros H1 H2 HN HF a. destruct (tuple_lines name (parts a) HN (HF a)) as [E C]. split; [apply H1|]. split; [|exact C]. now rewrite H2.
Qed.

Lemma simple_clear s : clear_lines (on_lines (Simple s)).
Proof. apply simple_lines. Qed.
Lemma simple_text s : text_of_lines (on_lines (Simple s)) = s.
Proof. symmetry. apply simple_lines. Qed.

Ltac clears := repeat first [apply Forall_nil | apply Forall_cons]; try split; first [apply simple_clear | clear_lit | idtac].

Lemma ltoken_laid tb : laid_out (form_ltoken tb) (dbg_ltoken tb) (pretty_ltoken tb).
Proof.
  intros [text tag|]; unfold form_ltoken, pretty_ltoken.
  - apply (tuple_laid "Text" (fun _ : unit => [Simple (dbg_str tb text); Simple (dbg_text_tag tag)])
      (fun _ => dbg_ltoken tb (LText text tag)) (fun _ => pretty_tuple "Text" [dbg_str tb text; dbg_text_tag tag])); try exact tt.
    + intros _. apply (thm_C83_layout tb).
    + intros _. cbn [map]. now rewrite !simple_text.
    + clear_lit.
    + intros _. clears.
  - apply (tuple_laid "Value" (fun _ : unit => []) (fun _ => dbg_ltoken tb LValue) (fun _ => pretty_tuple "Value" [])); try exact tt; auto.
    clear_lit.
Qed.

Lemma lltoken_laid tb : laid_out (form_lltoken tb) (dbg_lltoken tb) (pretty_lltoken tb).
Proof.
  unfold form_lltoken. apply struct_laid.
  - intros t. unfold number. cbn [on_one_line map fst snd]. rewrite <- (proj1 (ltoken_laid tb (token t))). apply (thm_C83_layout tb).
  - intros t. unfold number. cbn [map fst snd]. rewrite !simple_text, <- (proj1 (proj2 (ltoken_laid tb (token t)))). reflexivity.
  - clear_lit.
  - intros t. clears. apply (ltoken_laid tb).
Qed.

Lemma thm_C87_layouts :
  forall tb,
    laid_out (form_ltoken tb) (dbg_ltoken tb) (pretty_ltoken tb)
    /\ laid_out (form_lltoken tb) (dbg_lltoken tb) (pretty_lltoken tb)
    /\ laid_out form_amount dbg_amount pretty_amount
    /\ laid_out form_selection dbg_selection pretty_selection
    /\ laid_out (fun _ => Fields "AnyAttribute" []) dbg_any_attribute pretty_any_attribute.
Proof.
  intros tb. split; [apply ltoken_laid|]. split; [apply lltoken_laid|]. split; [|split].
  - unfold form_amount. apply tuple_laid.
    + intros d. reflexivity.
    + intros d. cbn [map]. now rewrite simple_text.
    + clear_lit.
    + intros d. clears.
  - unfold form_selection. apply struct_laid.
    + intros s. unfold number. cbn [on_one_line map fst snd]. unfold as_struct. cbn [map comma_separated fst snd].
      unfold dbg_selection. rewrite <- !app_assoc. reflexivity.
    + intros s. unfold number. cbn [map fst snd]. now rewrite !simple_text.
    + clear_lit.
    + intros s. clears.
  - apply (struct_laid "AnyAttribute" (fun _ => [])); auto. clear_lit.
Qed.

Lemma comma_items {A} (da : A -> str) l : dbg_items da l = comma_separated (map da l).
Proof. induction l as [|a l IH]; [reflexivity|]. destruct l as [|b l]; [reflexivity|]. cbn [map comma_separated dbg_items] in *. now rewrite IH. Qed.

Lemma thm_C87_inside :
  forall A B C t (fa : A -> form) (fb : B -> form) (fc : C -> form) (fv : den t -> form) da pa db pb dc pc dv pv,
    laid_out fa da pa -> laid_out fb db pb -> laid_out fc dc pc -> laid_out fv dv pv ->
    laid_out (form_find fa) (dbg_find da) (pretty_find pa)
    /\ laid_out (form_assignment fv) (dbg_assignment dv) (pretty_assignment pv)
    /\ laid_out (form_any_of2 fa fb) (dbg_any_of2 da db) (pretty_any_of2 pa pb)
    /\ laid_out (form_any_of3 fa fb fc) (dbg_any_of3 da db dc) (pretty_any_of3 pa pb pc)
    /\ laid_out (fun l => Items (map fa l)) (dbg_slice da) (pretty_slice pa).
Proof.
  intros A B C t fa fb fc fv da pa db pb dc pc dv pv HA HB HC HV.
  assert (ONE : forall X (fx : X -> form) dx px name x, laid_out fx dx px -> clear_name name ->
    literal name ++ literal "(" ++ dx x ++ literal ")" = on_one_line (Parts name [fx x])
    /\ pretty_tuple name [px x] = text_of_lines (on_lines (Parts name [fx x]))
    /\ Forall (fun x => ~ In 10%N (snd x)) (on_lines (Parts name [fx x]))).
  { intros X fx dx px name x HX HN. destruct (HX x) as (E1 & E2 & E3).
    destruct (tuple_lines name [fx x] HN (Forall_cons _ E3 (Forall_nil _))) as [T1 T2].
    split; [|split; [|exact T2]].
    - cbn [on_one_line map]. unfold as_tuple. cbn [comma_separated]. now rewrite E1.
    - cbn [map] in T1. now rewrite E2. }
  split; [|split; [|split; [|split]]].
  - unfold form_find. apply struct_laid.
    + intros f. unfold number. cbn [on_one_line map fst snd]. rewrite <- (proj1 (HA (found f))). unfold as_struct. cbn [map comma_separated fst snd].
      unfold dbg_find. rewrite <- !app_assoc. reflexivity.
    + intros f. unfold number. cbn [map fst snd]. rewrite !simple_text, <- (proj1 (proj2 (HA (found f)))). reflexivity.
    + clear_lit.
    + intros f. clears. apply HA.
  - unfold form_assignment. apply struct_laid.
    + intros f. unfold number. cbn [on_one_line map fst snd]. rewrite <- (proj1 (HV (as_value f))). unfold as_struct. cbn [map comma_separated fst snd].
      unfold dbg_assignment. rewrite <- !app_assoc. reflexivity.
    + intros f. unfold number. cbn [map fst snd]. rewrite !simple_text, <- (proj1 (proj2 (HV (as_value f)))). reflexivity.
    + clear_lit.
    + intros f. clears. apply HV.
  - intros [a|b]; [apply (ONE A fa da pa "A" a)|apply (ONE B fb db pb "B" b)]; auto; clear_lit.
  - intros [a|b|c]; [apply (ONE A fa da pa "A" a)|apply (ONE B fb db pb "B" b)|apply (ONE C fc dc pc "C" c)]; auto; clear_lit.
  - intros l. destruct (slice_lines pa fa l) as [E1 E2].
    { intros a. destruct (HA a) as (_ & K1 & K2). split; auto. }
    split; [|split; auto]. cbn [on_one_line]. unfold dbg_slice. rewrite comma_items, map_map.
    rewrite (map_ext _ _ (fun a => proj1 (HA a))). reflexivity.
Qed.

(** ** The lines of a token *)
Lemma dbg_N_clear n : ~ In 10%N (dbg_N n).
Proof. intros H. destruct (thm_C70_number n) as (_ & F & _). rewrite Forall_forall in F. specialize (F _ H). unfold digit in F. lia. Qed.

Lemma dbg_str_clear tb s : ~ In 10%N (dbg_str tb s).
Proof.
  unfold dbg_str. rewrite !in_app_iff. intros [E|[E|E]]; [cbn in E; intuition discriminate| |cbn in E; intuition discriminate].
  apply in_flat_map in E. destruct E as (c & _ & E). revert E. apply (denotes_no_newline 34%N _ c). apply escape_denotes. auto.
Qed.

Lemma thm_C87_token_lines :
  forall tb i s e,
    (forall text tag, on_lines (form_lltoken tb (mkLLToken i s e (LText text tag)))
       = [(0, literal "LLToken {"); (1, literal "token_idx: " ++ dbg_N (N.of_nat i) ++ literal ",");
          (1, literal "pos_starts_at: " ++ dbg_N s ++ literal ","); (1, literal "pos_ends_at: " ++ dbg_N e ++ literal ",");
          (1, literal "token: Text("); (2, dbg_str tb text ++ literal ","); (2, dbg_text_tag tag ++ literal ",");
          (1, literal "),"); (0, literal "}")])
    /\ on_lines (form_lltoken tb (mkLLToken i s e LValue))
       = [(0, literal "LLToken {"); (1, literal "token_idx: " ++ dbg_N (N.of_nat i) ++ literal ",");
          (1, literal "pos_starts_at: " ++ dbg_N s ++ literal ","); (1, literal "pos_ends_at: " ++ dbg_N e ++ literal ",");
          (1, literal "token: Value,"); (0, literal "}")].
Proof.
  intros tb i s e.
  assert (N1 : forall n, lines_of_text (dbg_N n) = [dbg_N n]) by (intros; apply lines_single, dbg_N_clear).
  split; [intros text tag|]; unfold form_lltoken, form_ltoken, number; cbn [token_idx pos_starts_at pos_ends_at token on_lines flat_map map fst snd];
    rewrite !N1; [rewrite (lines_single (dbg_str tb text)) by apply dbg_str_clear;
    rewrite (lines_single (dbg_text_tag tag)) by (destruct tag; cbn; intuition discriminate)|];
    cbn [map fst snd after_last before_first deeper app]; rewrite <- ?app_assoc; reflexivity.
Qed.

(** ** Telling apart *)
Lemma pad_cut s1 : forall b s2 r1 r2, pad b s1 ++ r1 = pad b s2 ++ r2 ->
  (exists q, s2 = s1 ++ q) \/ (exists q, s1 = s2 ++ q).
Proof.
  induction s1 as [|c s1 IH]; intros b s2 r1 r2 H; [left; now exists s2|]. destruct s2 as [|d s2]; [right; now exists (c :: s1)|].
  cbn [pad] in H. rewrite <- !app_assoc in H. apply app_inv_head in H. cbn [app] in H. injection H as <- H.
  destruct (IH _ _ _ _ H) as [[q ->]|[q ->]]; [left|right]; exists q; reflexivity.
Qed.

Lemma pad_inj s1 s2 b : pad b s1 = pad b s2 -> s1 = s2.
Proof.
  revert b s2. induction s1 as [|c s1 IH]; intros b [|d s2] H; auto.
  - destruct b; discriminate.
  - destruct b; discriminate.
  - cbn [pad] in H. apply app_inv_head in H. injection H as <- H. f_equal. eapply IH; eauto.
Qed.

Definition before_comma {A} (d : A -> str) : Prop :=
  forall x y r1 r2, d x ++ lit "," ++ r1 = d y ++ lit "," ++ r2 -> x = y /\ r1 = r2.

Lemma delimiting_comma {A} (d : A -> str) : self_delimiting d -> before_comma d.
Proof. intros H x y r1 r2 E. apply H in E. destruct E as [-> E]. apply app_inv_head in E. auto. Qed.

Lemma number_comma : before_comma dbg_N.
Proof. intros x y r1 r2 H. apply cut_number in H; try nodigit. destruct H as [-> H]. apply app_inv_head in H. auto. Qed.

Lemma tag_comma : before_comma dbg_text_tag.
Proof. intros a b r1 r2. destruct a, b; cbn; intros H; try discriminate; injection H as ->; auto. Qed.

Lemma pad_item {A} (d : A -> str) p : before_comma d -> self_delimiting (fun a => pad true (p ++ d a ++ lit "," ++ line_break)).
Proof.
  intros HD x y r1 r2 H. cbv beta in H.
  assert (X : forall x y q, (p ++ d y ++ lit "," ++ line_break) = (p ++ d x ++ lit "," ++ line_break) ++ q -> x = y).
  { intros x0 y0 q E. rewrite <- !app_assoc in E. apply app_inv_head in E. now apply HD in E as [-> _]. }
  assert (E : x = y).
  { destruct (pad_cut _ _ _ _ _ H) as [[q E]|[q E]]; [|symmetry]; eapply X; exact E. }
  subst y. apply app_inv_head in H. auto.
Qed.

Lemma text_cut tb : self_delimiting (pretty_ltoken tb).
Proof.
  intros [s1 t1|] [s2 t2|] r1 r2 H; unfold pretty_ltoken, pretty_tuple in H; try (cbn in H; discriminate).
  - cbn [flat_map] in H. rewrite <- !app_assoc in H. do 3 apply app_inv_head in H.
    apply (pad_item (dbg_str tb) [] (delimiting_comma _ (dbg_str_cut tb))) in H. destruct H as [-> H].
    apply (pad_item dbg_text_tag [] tag_comma) in H. destruct H as [-> H]. cbn [app] in H. apply app_inv_head in H. auto.
  - apply app_inv_head in H. auto.
Qed.

Lemma token_cut tb : self_delimiting (pretty_lltoken tb).
Proof.
  intros [i1 s1 e1 t1] [i2 s2 e2 t2] r1 r2 H. unfold pretty_lltoken, pretty_struct in H.
  cbn [token_idx pos_starts_at pos_ends_at token flat_map] in H. rewrite <- !app_assoc in H. do 3 apply app_inv_head in H.
  assert (PN : forall name x y u v, pad true (lit name ++ lit ": " ++ dbg_N x ++ lit "," ++ line_break) ++ u
    = pad true (lit name ++ lit ": " ++ dbg_N y ++ lit "," ++ line_break) ++ v -> x = y /\ u = v).
  { intros name x y u v E. apply (pad_item dbg_N (lit name ++ lit ": ") number_comma). cbv beta. rewrite <- !app_assoc. exact E. }
  apply PN in H. destruct H as [E1 H]. apply PN in H. destruct H as [-> H]. apply PN in H. destruct H as [-> H].
  assert (PT : forall x y u v, pad true (lit "token" ++ lit ": " ++ pretty_ltoken tb x ++ lit "," ++ line_break) ++ u
    = pad true (lit "token" ++ lit ": " ++ pretty_ltoken tb y ++ lit "," ++ line_break) ++ v -> x = y /\ u = v).
  { intros x y u v E. apply (pad_item (pretty_ltoken tb) (lit "token" ++ lit ": ") (delimiting_comma _ (text_cut tb))). cbv beta. rewrite <- !app_assoc. exact E. }
  apply PT in H. destruct H as [-> H]. cbn [app] in H. apply app_inv_head in H. apply Nat2N.inj in E1. subst. auto.
Qed.

Lemma slice_cut A (da : A -> str) : self_delimiting da -> self_delimiting (pretty_slice da).
Proof.
  intros HA x y r1 r2 H. unfold pretty_slice in H. rewrite <- !app_assoc in H. apply app_inv_head in H.
  assert (X : forall a u v, pad true (da a ++ lit "," ++ line_break) ++ u <> lit "]" ++ v).
  { intros a u v E. destruct (da a ++ lit "," ++ line_break) as [|c w] eqn:K; [destruct (da a); discriminate|]. cbn in E. discriminate. }
  assert (Y : forall x y, flat_map (fun a => pad true (da a ++ lit "," ++ line_break)) x ++ lit "]" ++ r1
    = flat_map (fun a => pad true (da a ++ lit "," ++ line_break)) y ++ lit "]" ++ r2 -> x = y /\ r1 = r2).
  { clear x y H. induction x as [|a x IH]; intros [|b y] H; cbn [flat_map] in H; rewrite <- ?app_assoc in H.
    - cbn [app] in H. apply app_inv_head in H. auto.
    - exfalso. symmetry in H. now apply X in H.
    - exfalso. now apply X in H.
    - apply (pad_item da [] (delimiting_comma _ HA)) in H. destruct H as [-> H]. destruct (IH _ H) as [-> ->]. auto. }
  destruct x as [|a x], y as [|b y].
  - apply Y. exact H.
  - cbn in H. discriminate.
  - cbn in H. discriminate.
  - apply app_inv_head in H. now apply Y.
Qed.

Lemma thm_C87_apart :
  forall tb, self_delimiting (pretty_ltoken tb) /\ self_delimiting (pretty_lltoken tb)
    /\ (forall A (pa : A -> str), self_delimiting pa -> self_delimiting (pretty_slice pa))
    /\ (forall A (pa : A -> str), tells_apart pa -> tells_apart (pretty_find pa))
    /\ (forall t (pv : den t -> str), tells_apart pv -> tells_apart (pretty_assignment pv))
    /\ (forall A B C (pa : A -> str) (pb : B -> str) (pc : C -> str), tells_apart pa -> tells_apart pb -> tells_apart pc ->
          tells_apart (pretty_any_of2 pa pb) /\ tells_apart (pretty_any_of3 pa pb pc)).
Proof.
  intros tb. split; [apply text_cut|]. split; [apply token_cut|]. split; [apply slice_cut|].
  assert (PN : forall name x y u v, pad true (lit name ++ lit ": " ++ dbg_N x ++ lit "," ++ line_break) ++ u
    = pad true (lit name ++ lit ": " ++ dbg_N y ++ lit "," ++ line_break) ++ v -> x = y /\ u = v).
  { intros name x y u v E. apply (pad_item dbg_N (lit name ++ lit ": ") number_comma). cbv beta. rewrite <- !app_assoc. exact E. }
  assert (PI : forall A (pa : A -> str) p x y, tells_apart pa ->
    pad true (p ++ pa x ++ lit "," ++ line_break) = pad true (p ++ pa y ++ lit "," ++ line_break) -> x = y).
  { intros A pa p x y HA E. apply pad_inj in E. apply app_inv_head in E. apply app_inv_tail in E. now apply HA. }
  split; [|split].
  - intros A pa HA [s1 e1 f1] [s2 e2 f2] H. unfold pretty_find, pretty_struct in H. cbn [start_pos_at end_pos_at found flat_map] in H.
    rewrite <- !app_assoc in H. do 3 apply app_inv_head in H.
    apply PN in H. destruct H as [-> H]. apply PN in H. destruct H as [-> H]. apply app_inv_tail in H.
    apply (PI A pa (lit "found" ++ lit ": ")) in H; [now subst|auto].
  - intros t pv HV [s1 e1 f1] [s2 e2 f2] H. unfold pretty_assignment, pretty_struct in H. cbn [as_start as_end as_value flat_map] in H.
    rewrite <- !app_assoc in H. do 3 apply app_inv_head in H.
    apply PN in H. destruct H as [E1 H]. apply PN in H. destruct H as [E2 H]. apply app_inv_tail in H.
    apply (PI _ pv (lit "value" ++ lit ": ")) in H; [|auto]. apply Nat2N.inj in E1, E2. now subst.
  - intros A B C pa pb pc HA HB HC.
    assert (PU : forall X (px : X -> str) name x y, tells_apart px -> pretty_tuple name [px x] = pretty_tuple name [px y] -> x = y).
    { intros X px name x y HX E. unfold pretty_tuple in E. cbn [flat_map] in E. do 3 apply app_inv_head in E. apply app_inv_tail in E.
      rewrite !app_nil_r in E. exact (PI X px [] x y HX E). }
    split; [intros [a|b] [a'|b'] H|intros [a|b|c] [a'|b'|c'] H]; try (cbn in H; discriminate);
      unfold pretty_any_of2, pretty_any_of3 in H; apply PU in H; auto; now subst.
Qed.

Lemma thm_C87_source :
  forall (SL : SegmenterLaws) tb tg1 tg2 s1 s2 l1 l2,
    create_line_from_string tg1 s1 = Ok l1 -> create_line_from_string tg2 s2 = Ok l2 ->
    (pretty_slice (pretty_lltoken tb) (ll_tokens l1) = pretty_slice (pretty_lltoken tb) (ll_tokens l2)
     <-> dbg_slice (dbg_lltoken tb) (ll_tokens l1) = dbg_slice (dbg_lltoken tb) (ll_tokens l2))
    /\ (pretty_slice (pretty_lltoken tb) (ll_tokens l1) = pretty_slice (pretty_lltoken tb) (ll_tokens l2) -> s1 = s2).
Proof.
  intros SL tb tg1 tg2 s1 s2 l1 l2 H1 H2.
  assert (P : pretty_slice (pretty_lltoken tb) (ll_tokens l1) = pretty_slice (pretty_lltoken tb) (ll_tokens l2) -> ll_tokens l1 = ll_tokens l2).
  { intros H. pose proof (slice_cut _ _ (token_cut tb) (ll_tokens l1) (ll_tokens l2) [] []) as K. rewrite !app_nil_r in K. now apply K. }
  assert (D : dbg_slice (dbg_lltoken tb) (ll_tokens l1) = dbg_slice (dbg_lltoken tb) (ll_tokens l2) -> ll_tokens l1 = ll_tokens l2).
  { intros H. destruct (thm_C83_apart tb) as (_ & _ & _ & _ & HS). specialize (HS (ll_tokens l1) (ll_tokens l2) [] []).
    rewrite !app_nil_r in HS. now apply HS. }
  split; [split; intros H; [rewrite (P H)|rewrite (D H)]; reflexivity|].
  intros H. apply (thm_C83_source SL tb tg1 tg2 s1 s2 l1 l2 H1 H2). now rewrite (P H).
Qed.

End ThmIndent.
