(** Map entries (C78). *)

From Verif Require Export LemStore SpecEntry.

Section ThmEntry.
Context {U : UserTypes}.

Lemma entry_from_spec k : forall m before,
  (exists b v a, m = b ++ (k, v) :: a /\ entry_from before m k = Occupied (mkOccupied (before ++ b) k v a))
  \/ ((forall v, ~ In (k, v) m) /\ entry_from before m k = Vacant (mkVacant (before ++ m) k)).
Proof.
  induction m as [|[k' v'] m IH]; intros before; cbn [entry_from].
  - right. split; [auto|]. now rewrite app_nil_r.
  - unfold ty_eqb. destruct (ty_eq_dec k' k) as [->|Hn].
    + left. exists [], v', m. split; [reflexivity|]. now rewrite app_nil_r.
    + destruct (IH (before ++ [(k', v')])) as [(b & v & a & -> & E)|(Hl & E)].
      * left. exists ((k', v') :: b), v, a. split; [reflexivity|]. rewrite E, <- app_assoc. reflexivity.
      * right. split; [|rewrite E, <- app_assoc; reflexivity]. intros v [X|X]; [congruence|exact (Hl v X)].
Qed.

Lemma typed_map_middle (b : AnyMap) t x a : typed_map (b ++ (t, x) :: a) ->
  (exists v : den t, x = mkany t v) /\ typed_map (b ++ a) /\ lacks (b ++ a) t
  /\ forall w : den t, with_value (b ++ (t, x) :: a) t (Some w) (b ++ (t, mkany t w) :: a).
Proof.
  intros (ND & HT). rewrite map_app in ND. cbn [map fst] in ND.
  split; [apply HT, in_or_app; right; now left|].
  assert (TB : typed_map (b ++ a)).
  { split; [rewrite map_app; now apply NoDup_remove_1 in ND|]. intros t' x' Hin. apply HT, in_or_app. apply in_app_or in Hin.
    destruct Hin; [now left|right; now right]. }
  assert (LB : lacks (b ++ a) t).
  { intros v Hin. apply NoDup_remove_2 in ND. apply ND. rewrite <- map_app. apply in_map_iff. exists (t, v). auto. }
  split; [exact TB|]. split; [exact LB|]. intros w. split; [|split].
  - split; [rewrite map_app; exact ND|]. intros t' x' Hin. apply in_app_or in Hin. destruct Hin as [Hin|[E|Hin]].
    + apply HT, in_or_app. now left.
    + injection E as <- <-. now exists w.
    + apply HT, in_or_app. right. now right.
  - intros t' v' Hn. rewrite !in_app_iff. cbn [In]. split; (intros [H|[H|H]]; [auto|congruence|auto]).
  - apply in_or_app. right. now left.
Qed.

Lemma entry_of_cases m t : typed_map m ->
  (exists b (v : den t) a, m = b ++ (t, mkany t v) :: a /\ has m t v
     /\ entry_of m t = Occupied (mkOccupied b t (mkany t v) a))
  \/ (lacks m t /\ entry_of m t = Vacant (mkVacant m t)).
Proof.
  intros HM. destruct (entry_from_spec t m []) as [(b & x & a & -> & E)|(Hl & E)]; [left|right; auto].
  destruct (typed_map_middle b t x a HM) as ((v & ->) & _). exists b, v, a. split; [reflexivity|]. split; [|exact E].
  apply in_or_app. right. now left.
Qed.

Lemma has_unique m t (v w : den t) : typed_map m -> has m t v -> has m t w -> v = w.
Proof.
  intros (ND & _) Hv Hw.
  assert (E : mkany t v = mkany t w).
  { unfold has in *. revert ND Hv Hw. generalize (mkany t v), (mkany t w). clear v w. intros x y. induction m as [|[k z] m IH]; cbn [map fst In]; [easy|].
    intros ND. inversion ND as [|? ? Hni ND']; subst.
    intros [Ex|Hx] [Ey|Hy]; [congruence| | |auto].
    - injection Ex as -> ->. destruct Hni. apply in_map_iff. exists (t, y). auto.
    - injection Ey as -> ->. destruct Hni. apply in_map_iff. exists (t, x). auto. }
  pose proof (downcast_same t v) as A. rewrite E, downcast_same in A. congruence.
Qed.

Lemma thm_C78_occupied :
  forall m t v, typed_map m -> has m t v ->
    exists e, entry_of m t = Occupied e /\ oe_get t e = Ok v
      /\ (exists r, oe_get_mut t e = Ok r /\ refers m t v r)
      /\ (exists r, oe_into_mut t e = Ok r /\ refers m t v r)
      /\ (forall w, exists m', oe_insert t e w = Ok (v, m') /\ with_value m t (Some w) m')
      /\ (exists m', oe_remove t e = Ok (v, m') /\ with_value m t None m').
Proof.
  intros m t v HM HV. destruct (entry_of_cases m t HM) as [(b & x & a & Em & Hx & E)|(Hl & _)]; [|now apply Hl in HV].
  assert (x = v) by (apply (has_unique m t); assumption). subst x. rewrite Em in HM.
  destruct (typed_map_middle b t _ a HM) as (_ & TB & LB & WV).
  exists (mkOccupied b t (mkany t v) a). split; [exact E|]. unfold oe_get, oe_get_mut, oe_into_mut, oe_insert, oe_remove, refers.
  cbn [oe_value oe_before oe_after oe_key]. rewrite downcast_same. cbn [expect bind]. rewrite Em.
  split; [reflexivity|]. split; [eexists; split; [reflexivity|]; split; [reflexivity|exact WV]|].
  split; [eexists; split; [reflexivity|]; split; [reflexivity|exact WV]|].
  split; [intros w; eexists; split; [reflexivity|exact (WV w)]|].
  eexists. split; [reflexivity|]. split; [exact TB|]. split; [|exact LB].
  intros t' v' Hn. rewrite !in_app_iff. cbn [In]. split; [tauto|]. intros [H|[H|H]]; [auto|congruence|auto].
Qed.

Lemma vacant_refers m t w : typed_map m -> lacks m t ->
  exists r, ve_insert t (mkVacant m t) w = Ok r /\ refers m t w r.
Proof.
  intros (ND & HT) Hl. unfold ve_insert. rewrite downcast_same. cbn [expect bind ve_map ve_key]. eexists. split; [reflexivity|].
  split; [reflexivity|]. intros x. cbn [ref_write]. split; [split|split].
  - rewrite map_app. cbn [map fst]. apply NoDup_Add with (a := t) (l := map fst m).
    + replace (map fst m) with (map fst m ++ []) at 1 by apply app_nil_r. apply Add_app.
    + split; [exact ND|]. intros Hin. apply in_map_iff in Hin. destruct Hin as ([k z] & E & Hin). cbn in E. subst k. exact (Hl z Hin).
  - intros t' a Hin. apply in_app_or in Hin. destruct Hin as [Hin|[E|[]]]; [now apply HT|]. injection E as <- <-. now exists x.
  - intros t' v' Hn. rewrite in_app_iff. cbn [In]. split; [intros [H|[H|[]]]; [auto|congruence]|auto].
  - apply in_or_app. right. now left.
Qed.

Lemma thm_C78_vacant :
  forall m t, typed_map m -> lacks m t ->
    exists e, entry_of m t = Vacant e /\ forall w, exists r, ve_insert t e w = Ok r /\ refers m t w r.
Proof.
  intros m t HM Hl. destruct (entry_of_cases m t HM) as [(b & x & a & Em & Hx & E)|(_ & E)]; [now apply Hl in Hx|].
  exists (mkVacant m t). split; [exact E|]. intros w. now apply vacant_refers.
Qed.

Lemma occupied_into m t v e : typed_map m -> has m t v -> entry_of m t = Occupied e -> exists r, oe_into_mut t e = Ok r /\ refers m t v r.
Proof.
  intros HM HV E. destruct (thm_C78_occupied m t v HM HV) as (e' & E' & _ & _ & H & _). rewrite E in E'. injection E' as <-. exact H.
Qed.

Lemma thm_C78_or_insert :
  forall m t d, typed_map m ->
    exists v r, or_insert t (entry_of m t) d = Ok r /\ refers m t v r
      /\ (has m t v \/ lacks m t /\ v = d).
Proof.
  intros m t d HM. destruct (entry_of_cases m t HM) as [(b & v & a & _ & Hx & E)|(Hl & E)].
  - destruct (occupied_into m t v _ HM Hx E) as (r & Er & Hr). exists v, r. rewrite E. auto.
  - destruct (vacant_refers m t d HM Hl) as (r & Er & Hr). exists d, r. rewrite E. auto.
Qed.

Lemma thm_C78_or_insert_with :
  forall m t default, typed_map m ->
    (forall v, has m t v -> exists r, or_insert_with t (entry_of m t) default = Ok r /\ refers m t v r)
    /\ (forall d, lacks m t -> default tt = Ok d -> exists r, or_insert_with t (entry_of m t) default = Ok r /\ refers m t d r)
    /\ (forall p, lacks m t -> default tt = Panic p -> or_insert_with t (entry_of m t) default = Panic p).
Proof.
  intros m t default HM. destruct (entry_of_cases m t HM) as [(b & x & a & _ & Hx & E)|(Hl & E)].
  - split; [|split; intros ? Hl; now apply Hl in Hx]. intros v HV. destruct (occupied_into m t v _ HM HV E) as (r & Er & Hr).
    exists r. rewrite E. auto.
  - split; [intros v HV; now apply Hl in HV|]. rewrite E. cbn [or_insert_with]. split.
    + intros d _ ->. cbn [bind]. now apply vacant_refers.
    + intros p _ ->. reflexivity.
Qed.

Lemma thm_C78_other_type :
  forall e t t' (v : den t'), oe_value e = mkany t' v -> t' <> t ->
    oe_get t e = Panic PDowncast /\ oe_get_mut t e = Panic PDowncast /\ oe_into_mut t e = Panic PDowncast
    /\ (forall w, oe_insert t e w = Panic PDowncast) /\ oe_remove t e = Panic PDowncast
    /\ (forall d, or_insert t (Occupied e) d = Panic PDowncast) /\ (forall f, or_insert_with t (Occupied e) f = Panic PDowncast).
Proof.
  intros e t t' v E Hn. unfold or_insert, or_insert_with, oe_get, oe_get_mut, oe_into_mut, oe_insert, oe_remove.
  rewrite E, (downcast_other t t' v Hn). repeat split.
Qed.

End ThmEntry.
