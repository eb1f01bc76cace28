(** C84: matchers and resolvers with memory. *)

From Verif Require Import LemBase.
From Verif Require Export SpecState.

Section ThmState.
Context {UC : Unicode} {U : UserTypes}.

(** ** Computations that ask a matcher *)
Inductive asker (A R : Type) : Type :=
| Done (r : res R)
| Ask (d : direction) (k : list (A * nat) -> asker A R).
Arguments Done {A R} r. Arguments Ask {A R} d k.

Fixpoint abind {A R T} (t : asker A R) (f : R -> asker A T) : asker A T :=
  match t with
  | Done (Ok r) => f r
  | Done (Panic p) => Done (Panic p)
  | Done OutOfFuel => Done OutOfFuel
  | Ask d k => Ask d (fun x => abind (k x) f)
  end.
Fixpoint amapM {A R T} (f : R -> asker A T) (l : list R) : asker A (list T) :=
  match l with
  | [] => Done (Ok [])
  | a :: l' => abind (f a) (fun b => abind (amapM f l') (fun bs => Done (Ok (b :: bs))))
  end.
Definition aflat {A R T} (f : R -> asker A (list T)) (l : list R) : asker A (list T) :=
  abind (amapM f l) (fun xs => Done (Ok (concat xs))).
Definition ask {A} (d : direction) : asker A (list (A * nat)) := Ask d (fun x => Done (Ok x)).

Fixpoint ask_mem {A R M} (l : LLLine) (t : asker A R) (mm : mem_matcher M A) : mem M R :=
  match t with
  | Done r => lift r
  | Ask d k => mbind (mm d l) (fun x => ask_mem l (k x) mm)
  end.
Fixpoint ask_pure {A R} (l : LLLine) (t : asker A R) (m : matcher A) : res R :=
  match t with
  | Done r => r
  | Ask d k => bind (m d l) (fun x => ask_pure l (k x) m)
  end.

(** the questions are [ds] in turn, unless there is a panic *)
Inductive follows {A R} : list direction -> asker A R -> Prop :=
| F_ok r : follows [] (Done (Ok r))
| F_panic ds p : follows ds (Done (Panic p))
| F_fuel ds : follows ds (Done OutOfFuel)
| F_ask d ds k : (forall x, follows ds (k x)) -> follows (d :: ds) (Ask d k).

Lemma follows_bind {A R T} ds ds' (t : asker A R) (f : R -> asker A T) :
  follows ds t -> (forall x, follows ds' (f x)) -> follows (ds ++ ds') (abind t f).
Proof. intros H Hf. induction H; cbn; [apply Hf | constructor ..]; auto. Qed.
Lemma follows_map {A R T} (dirs : R -> list direction) (f : R -> asker A T) l :
  (forall x, follows (dirs x) (f x)) -> follows (flat_map dirs l) (amapM f l).
Proof.
  intros Hf. induction l as [|a l IH]; cbn; [constructor|].
  apply follows_bind; [apply Hf|]. intros b.
  rewrite <- (app_nil_r (flat_map dirs l)). apply follows_bind; [exact IH|]. constructor.
Qed.
Lemma follows_flat {A R T} (dirs : R -> list direction) (f : R -> asker A (list T)) l :
  (forall x, follows (dirs x) (f x)) -> follows (flat_map dirs l) (aflat f l).
Proof.
  intros Hf. unfold aflat. rewrite <- (app_nil_r (flat_map dirs l)).
  apply follows_bind; [apply follows_map, Hf|]. constructor.
Qed.
Lemma follows_one {A} d : follows [d] (@ask A d).
Proof. constructor. intros x. constructor. Qed.

Lemma ask_mem_bind {A R T M} l (t : asker A R) (f : R -> asker A T) (mm : mem_matcher M A) st :
  ask_mem l (abind t f) mm st = mbind (ask_mem l t mm) (fun x => ask_mem l (f x) mm) st.
Proof.
  revert st. induction t as [r|d k IH]; intros st.
  - destruct r; reflexivity.
  - cbn. unfold mbind at 1 2 3. destruct (mm d l st) as [st' [x| |]]; try reflexivity. apply IH.
Qed.
Lemma ask_pure_bind {A R T} l (t : asker A R) (f : R -> asker A T) m :
  ask_pure l (abind t f) m = bind (ask_pure l t m) (fun x => ask_pure l (f x) m).
Proof.
  induction t as [r|d k IH]; [destruct r; reflexivity|]. cbn. destruct (m d l); cbn; auto.
Qed.
Lemma mbind_ext {M A B} (x y : mem M A) (f g : A -> mem M B) st :
  x st = y st -> (forall a st', f a st' = g a st') -> mbind x f st = mbind y g st.
Proof. intros E H. unfold mbind. rewrite E. destruct (y st) as [st' [a| |]]; auto. Qed.
Lemma ask_mem_map {A R T M} l (f : R -> asker A T) (g : R -> mem M T) (mm : mem_matcher M A) xs st :
  (forall x st', ask_mem l (f x) mm st' = g x st') ->
  ask_mem l (amapM f xs) mm st = mem_mapM g xs st.
Proof.
  intros H. revert st. induction xs as [|x xs IH]; intros st; [reflexivity|]. cbn [amapM mem_mapM].
  rewrite ask_mem_bind. apply mbind_ext; [apply H|]. intros b st'.
  rewrite ask_mem_bind. apply mbind_ext; [apply IH|]. reflexivity.
Qed.
Lemma ask_pure_map {A R T} l (f : R -> asker A T) g m xs :
  (forall x, ask_pure l (f x) m = g x) -> ask_pure l (amapM f xs) m = mapM g xs.
Proof.
  intros H. induction xs as [|x xs IH]; [reflexivity|]. cbn [amapM mapM].
  rewrite ask_pure_bind, H. destruct (g x); try reflexivity. cbn. rewrite ask_pure_bind, IH. reflexivity.
Qed.
Lemma ask_mem_flat {A R T M} l (f : R -> asker A (list T)) (g : R -> mem M (list T)) (mm : mem_matcher M A) xs st :
  (forall x st', ask_mem l (f x) mm st' = g x st') ->
  ask_mem l (aflat f xs) mm st = mem_flat_mapM g xs st.
Proof.
  intros H. unfold aflat, mem_flat_mapM. rewrite ask_mem_bind.
  apply mbind_ext; [apply ask_mem_map, H|]. reflexivity.
Qed.
Lemma ask_pure_flat {A R T} l (f : R -> asker A (list T)) g m xs :
  (forall x, ask_pure l (f x) m = g x) -> ask_pure l (aflat f xs) m = flat_mapM g xs.
Proof.
  intros H. unfold aflat, flat_mapM, rmap. rewrite ask_pure_bind, (ask_pure_map l f g m xs H). reflexivity.
Qed.

Lemma ask_pure_ext {A R} l ds (t : asker A R) m m' :
  follows ds t -> (forall d, In d ds -> m d l = m' d l) -> ask_pure l t m = ask_pure l t m'.
Proof.
  intros H. induction H as [| | |d ds k Hk IH]; intros E; try reflexivity. cbn.
  rewrite (E d) by (left; reflexivity). destruct (m' d l); cbn; try reflexivity.
  apply IH. intros d' Hd. apply E. right. exact Hd.
Qed.

Lemma dir_eq_dec (a b : direction) : {a = b} + {a <> b}.
Proof. decide equality; apply Nat.eq_dec. Qed.

Lemma ask_recording {A R M} l (t : asker A R) (mm : mem_matcher M A) ds :
  follows ds t -> NoDup ds ->
  forall st tr0, exists tr more m,
    ds = tr ++ more
    /\ ask_mem l t mm st = (memory_after mm l tr st, ask_pure l t m)
    /\ ask_mem l t (recording mm) (st, tr0) = ((memory_after mm l tr st, tr0 ++ tr), ask_pure l t m)
    /\ (forall x, ask_pure l t m = Ok x -> more = [])
    /\ (forall before d after, tr = before ++ d :: after -> m d l = snd (mm d l (memory_after mm l before st)))
    /\ (forall d, exists st', m d l = snd (mm d l st')).
Proof.
  intros H. induction H as [r|ds p|ds|d ds k Hk IH]; intros ND st tr0.
  1: exists [], [], (fun d l => snd (mm d l st)).
  2: exists [], ds, (fun d l => snd (mm d l st)).
  3: exists [], ds, (fun d l => snd (mm d l st)).
  1-3: (split; [reflexivity|]; split; [reflexivity|]; split; [cbn; unfold lift; rewrite app_nil_r; reflexivity|];
        split; [first [reflexivity | discriminate]|]; split; [intros [|? ?] ? ? E; discriminate E | eauto]).
  inversion ND as [|? ? Hd ND']; subst.
  cbn [ask_mem ask_pure]. unfold mbind, recording at 1.
  destruct (mm d l st) as [st1 [x|p|]] eqn:E.
  - destruct (IH x ND' st1 (tr0 ++ [d])) as (tr & more & m & Eds & E1 & E2 & E3 & E4 & E5).
    set (m' := fun d' l' => if dir_eq_dec d d' then Ok x else m d' l').
    assert (Em : forall d', In d' ds -> m d' l = m' d' l).
    { intros d' Hd'. unfold m'. destruct (dir_eq_dec d d'); [subst; easy|reflexivity]. }
    assert (Ek : ask_pure l (k x) m = ask_pure l (k x) m') by exact (ask_pure_ext l ds _ m m' (Hk x) Em).
    exists (d :: tr), more, m'. rewrite Ek in E1, E2, E3. clear Ek.
    assert (Eb : bind (m' d l) (fun x0 => ask_pure l (k x0) m') = ask_pure l (k x) m').
    { unfold m' at 1. destruct (dir_eq_dec d d); [reflexivity|easy]. }
    rewrite Eb. cbn [memory_after fold_left]. rewrite E. cbn [fst].
    split; [cbn; congruence|]. split; [exact E1|]. split; [rewrite E2; rewrite <- app_assoc; reflexivity|]. split; [exact E3|].
    split.
    + intros [|b before] d' after' Et.
      * injection Et as <- <-. unfold m'. destruct (dir_eq_dec d d); [|easy]. cbn. rewrite E. reflexivity.
      * injection Et as <- Et. rewrite <- (Em d'); [|rewrite Eds, Et; rewrite !in_app_iff; cbn; tauto].
        rewrite (E4 _ _ _ Et). cbn [memory_after fold_left]. rewrite E. reflexivity.
    + intros d'. unfold m'. destruct (dir_eq_dec d d') as [<-|]; [exists st; rewrite E; reflexivity|apply E5].
  - exists [d], ds, (fun d' l' => snd (mm d' l' st)). cbn [memory_after fold_left]. rewrite E. cbn.
    split; [reflexivity|]. split; [reflexivity|]. split; [reflexivity|]. split; [discriminate|].
    split; [|eauto]. intros [|b [|? ?]] d' after' Et; inversion Et; subst. reflexivity.
  - exists [d], ds, (fun d' l' => snd (mm d' l' st)). cbn [memory_after fold_left]. rewrite E. cbn.
    split; [reflexivity|]. split; [reflexivity|]. split; [reflexivity|]. split; [discriminate|].
    split; [|eauto]. intros [|b [|? ?]] d' after' Et; inversion Et; subst. reflexivity.
Qed.

(** A method given by an asker. *)
Lemma asks_by {A R M} l (t : asker A R) ds (wm : forall M, mem_matcher M A -> mem M R) (wo : matcher A -> res R)
    (mm : mem_matcher M A) st :
  (forall M (mm : mem_matcher M A) st, wm M mm st = ask_mem l t mm st) ->
  (forall m, wo m = ask_pure l t m) ->
  follows ds t -> NoDup ds -> asks_in_turn l ds wm wo mm st.
Proof.
  intros Hm Ho HF ND. destruct (ask_recording l t mm ds HF ND st []) as (tr & more & m & E & E1 & E2 & E3 & E4 & E5).
  exists tr, more, m. rewrite !Hm, Ho. auto 7.
Qed.

Lemma ask_memoryless {A R M} l (t : asker A R) (m : matcher A) (st : M) :
  ask_mem l t (memoryless m) st = (st, ask_pure l t m).
Proof.
  induction t as [r|d k IH]; [reflexivity|]. cbn. unfold mbind, memoryless at 1.
  destruct (m d l); cbn; auto.
Qed.

(** The askers of the methods. *)
Definition t_find_by {A} (s : LLSelection) : asker A (list (LLSelection * A)) :=
  aflat (fun i => abind (ask (Fwd i)) (fun ms => Done (Ok (map (fun '(out, j) => (mkSel (sel_line s) i j, out)) ms))))
    (range_incl (start_idx s) (end_idx s)).
Definition t_find_both {A} (s : LLSelection) : asker A (list (LLSelection * A)) :=
  aflat (fun i => abind (ask (Fwd i)) (fun fs => abind (ask (Bwd i)) (fun bs =>
           Done (Ok (map (fun '(out, j) => (mkSel (sel_line s) i j, out)) fs
                      ++ map (fun '(out, j) => (mkSel (sel_line s) j i, out)) bs)))))
    (range_incl (start_idx s) (end_idx s)).
Definition t_forwards {A} (s : LLSelection) : asker A (list (LLSelection * A)) :=
  if Nat.eqb (S (end_idx s)) (line_len s) then Done (Ok [])
  else abind (ask (Fwd (S (end_idx s)))) (fun ms => Done (Ok (map (fun '(out, j) => (mkSel (sel_line s) (start_idx s) j, out)) ms))).
Definition t_backwards {A} (s : LLSelection) : asker A (list (LLSelection * A)) :=
  if Nat.eqb (start_idx s) 0 then Done (Ok [])
  else abind (ask (Bwd (start_idx s - 1))) (fun ms => Done (Ok (map (fun '(out, j) => (mkSel (sel_line s) j (end_idx s), out)) ms))).
Definition split_of {A} (s : LLSelection) (matches : list (LLSelection * A)) : list LLSelection :=
  match matches with
  | [] => [s]
  | [m0] =>
      opt_list (selection_before s (start_idx s) (start_idx (fst m0)))
          ++ opt_list (selection_from s (S (end_idx (fst m0))) (end_idx s))
  | m0 :: _ =>
      let start_opt := selection_before s (start_idx s) (start_idx (fst m0)) in
      let last_m := last matches m0 in
      let end_opt := selection_from s (S (end_idx (fst last_m))) (end_idx s) in
      opt_list start_opt
          ++ filter_map (fun '(w0, w1) =>
               selection_before s (S (end_idx (fst w0))) (start_idx (fst w1)))
               (windows2 matches)
          ++ opt_list end_opt
  end.
Definition then_ {A R T} (f : R -> T) (t : asker A R) : asker A T := abind t (fun x => Done (Ok (f x))).
Definition t_trim {A} (s : LLSelection) (from_start from_end : bool) : asker A (option LLSelection) :=
  abind (if from_start
         then abind (ask (Fwd (start_idx s))) (fun ms => Done (Ok (match ms with (_, j) :: _ => j + 1 | [] => start_idx s end)))
         else Done (Ok (start_idx s))) (fun new_start =>
  abind (if from_end
         then abind (ask (Bwd (end_idx s))) (fun ms => Done (Ok (match ms with
             | (_, j) :: _ => match checked_sub j 1 with Some k => k | None => j end
             | [] => end_idx s
             end)))
         else Done (Ok (end_idx s))) (fun new_end =>
  Done (Ok (if (start_idx s <=? new_end) && (new_start <=? new_end)
            then Some (mkSel (sel_line s) new_start new_end) else None)))).
Definition t_find {A} (l : LLLine) : asker A (list (LLLineFind A)) :=
  aflat (fun i => abind (ask (Fwd i)) (fun ms =>
      Done (mapM (fun '(out, j) =>
              s <- pos_start_at l i;;
              e <- pos_end_at l j;;
              Ok (mkFind s e out)) ms)))
    (seq 0 (length (ll_tokens l))).

(** Their meaning with and without memory. *)
Lemma ask_one_mem {A M} l d (mm : mem_matcher M A) st : ask_mem l (ask d) mm st = mm d l st.
Proof. cbn. unfold mbind, lift. destruct (mm d l st) as [st' [x| |]]; reflexivity. Qed.
Lemma ask_one_pure {A} l d (m : matcher A) : ask_pure l (ask d) m = m d l.
Proof. cbn. destruct (m d l); reflexivity. Qed.
Lemma then_mem {A R T M} l (f : R -> T) (t : asker A R) (mm : mem_matcher M A) x st :
  (forall st, x st = ask_mem l t mm st) -> mbind x (fun y => lift (Ok (f y))) st = ask_mem l (then_ f t) mm st.
Proof. intros H. unfold then_. rewrite ask_mem_bind. apply mbind_ext; [apply H|reflexivity]. Qed.
Lemma then_pure {A R T} l (f : R -> T) (t : asker A R) m x :
  x = ask_pure l t m -> rmap f x = ask_pure l (then_ f t) m.
Proof. intros ->. unfold then_, rmap. rewrite ask_pure_bind. reflexivity. Qed.
Lemma find_by_mem {A M} s (mm : mem_matcher M A) st : mem_find_by s mm st = ask_mem (line_of s) (t_find_by s) mm st.
Proof.
  symmetry. apply ask_mem_flat. intros i st'. rewrite ask_mem_bind.
  apply mbind_ext; [apply ask_one_mem|reflexivity].
Qed.
Lemma find_by_pure {A} s (m : matcher A) : find_by s m = ask_pure (line_of s) (t_find_by s) m.
Proof. symmetry. apply ask_pure_flat. intros i. rewrite ask_pure_bind, ask_one_pure. reflexivity. Qed.
Lemma split_mem {A M} s (mm : mem_matcher M A) st :
  mem_split_by s mm st = ask_mem (line_of s) (then_ (split_of s) (t_find_by s)) mm st.
Proof.
  rewrite <- (then_mem (line_of s) (split_of s) (t_find_by s) mm (mem_find_by s mm)) by (intros; apply find_by_mem).
  apply mbind_ext; [reflexivity|]. intros [|a [|b ms]] st'; reflexivity.
Qed.
Lemma split_pure {A} s (m : matcher A) : split_by s m = ask_pure (line_of s) (then_ (split_of s) (t_find_by s)) m.
Proof.
  rewrite <- (then_pure _ _ _ _ (find_by s m)) by apply find_by_pure.
  unfold split_by, rmap. destruct (find_by s m) as [[|a [|b ms]]| |]; reflexivity.
Qed.
Lemma both_mem {A M} s (mm : mem_matcher M A) st : mem_find_both s mm st = ask_mem (line_of s) (t_find_both s) mm st.
Proof.
  symmetry. apply ask_mem_flat. intros i st'. rewrite ask_mem_bind.
  apply mbind_ext; [apply ask_one_mem|]. intros fs st2. rewrite ask_mem_bind.
  apply mbind_ext; [apply ask_one_mem|reflexivity].
Qed.
Lemma both_pure {A} s (m : matcher A) : find_by_forwards_and_backwards s m = ask_pure (line_of s) (t_find_both s) m.
Proof.
  symmetry. apply ask_pure_flat. intros i. rewrite ask_pure_bind, ask_one_pure.
  destruct (m (Fwd i) (line_of s)); reflexivity.
Qed.
Lemma forwards_mem {A M} s (mm : mem_matcher M A) st : mem_match_forwards s mm st = ask_mem (line_of s) (t_forwards s) mm st.
Proof.
  unfold mem_match_forwards, t_forwards. destruct (Nat.eqb (S (end_idx s)) (line_len s)); [reflexivity|].
  rewrite ask_mem_bind. apply mbind_ext; [symmetry; apply ask_one_mem|reflexivity].
Qed.
Lemma forwards_pure {A} s (m : matcher A) : match_forwards s m = ask_pure (line_of s) (t_forwards s) m.
Proof.
  unfold match_forwards, t_forwards. destruct (Nat.eqb (S (end_idx s)) (line_len s)); [reflexivity|].
  rewrite ask_pure_bind, ask_one_pure. reflexivity.
Qed.
Lemma backwards_mem {A M} s (mm : mem_matcher M A) st : mem_match_backwards s mm st = ask_mem (line_of s) (t_backwards s) mm st.
Proof.
  unfold mem_match_backwards, t_backwards. destruct (Nat.eqb (start_idx s) 0); [reflexivity|].
  rewrite ask_mem_bind. apply mbind_ext; [symmetry; apply ask_one_mem|reflexivity].
Qed.
Lemma backwards_pure {A} s (m : matcher A) : match_backwards s m = ask_pure (line_of s) (t_backwards s) m.
Proof.
  unfold match_backwards, t_backwards. destruct (Nat.eqb (start_idx s) 0); [reflexivity|].
  rewrite ask_pure_bind, ask_one_pure. reflexivity.
Qed.
Lemma trim_mem {A M} s fs fe (mm : mem_matcher M A) st :
  mem_trim_selection s mm fs fe st = ask_mem (line_of s) (t_trim s fs fe) mm st.
Proof.
  unfold t_trim. rewrite ask_mem_bind. apply mbind_ext.
  { destruct fs; [|reflexivity]. rewrite ask_mem_bind. apply mbind_ext; [symmetry; apply ask_one_mem|reflexivity]. }
  intros ns st'. rewrite ask_mem_bind. apply mbind_ext; [|reflexivity].
  destruct fe; [|reflexivity]. rewrite ask_mem_bind. apply mbind_ext; [symmetry; apply ask_one_mem|reflexivity].
Qed.
Lemma trim_pure {A} s fs fe (m : matcher A) : trim_selection s m fs fe = ask_pure (line_of s) (t_trim s fs fe) m.
Proof.
  unfold t_trim, trim_selection. rewrite ask_pure_bind. destruct fs.
  - rewrite ask_pure_bind, ask_one_pure. destruct (m (Fwd (start_idx s)) (line_of s)); try reflexivity. cbn [bind ask_pure].
    rewrite ask_pure_bind. destruct fe; [|reflexivity]. rewrite ask_pure_bind, ask_one_pure.
    try (destruct (m (Bwd (end_idx s)) (line_of s)); reflexivity).
  - cbn [bind ask_pure]. rewrite ask_pure_bind. destruct fe; [|reflexivity]. rewrite ask_pure_bind, ask_one_pure.
    try (destruct (m (Bwd (end_idx s)) (line_of s)); reflexivity).
Qed.
Lemma find_mem {A M} l (mm : mem_matcher M A) st : mem_find l mm st = ask_mem l (t_find l) mm st.
Proof.
  symmetry. apply ask_mem_flat. intros i st'. rewrite ask_mem_bind.
  apply mbind_ext; [apply ask_one_mem|reflexivity].
Qed.
Lemma find_pure {A} l (m : matcher A) : find l m = ask_pure l (t_find l) m.
Proof. symmetry. apply ask_pure_flat. intros i. rewrite ask_pure_bind, ask_one_pure. reflexivity. Qed.

(** The questions. *)
Definition forwards (a b : nat) : list direction := map Fwd (seq a (S b - a)).
Definition both_ways (a b : nat) : list direction := flat_map (fun i => [Fwd i; Bwd i]) (seq a (S b - a)).

Lemma flat_one {A B} (f : A -> B) l : flat_map (fun x => [f x]) l = map f l.
Proof. induction l; cbn; [reflexivity|f_equal; assumption]. Qed.
Lemma follows_then {A R T} ds (f : R -> T) (t : asker A R) : follows ds t -> follows ds (then_ f t).
Proof. intros H. rewrite <- (app_nil_r ds). apply follows_bind; [exact H|]. constructor. Qed.
Lemma follows_done {A R} (r : res R) : follows (A := A) [] (Done r).
Proof. destruct r; constructor. Qed.
Lemma follows_ask {A R} d ds (f : list (A * nat) -> asker A R) :
  (forall x, follows ds (f x)) -> follows (d :: ds) (abind (ask d) f).
Proof. intros H. apply (follows_bind [d] ds); [apply follows_one|exact H]. Qed.
Lemma follows_find_by {A} s : follows (A := A) (forwards (start_idx s) (end_idx s)) (t_find_by s).
Proof.
  unfold forwards. rewrite <- flat_one. apply follows_flat. intros i. apply follows_ask. intros x. apply follows_done.
Qed.
Lemma follows_both {A} s : follows (A := A) (both_ways (start_idx s) (end_idx s)) (t_find_both s).
Proof.
  apply (follows_flat (fun i => [Fwd i; Bwd i])). intros i. apply follows_ask. intros x. apply follows_ask. intros y. apply follows_done.
Qed.
Lemma follows_find {A} l : follows (A := A) (map Fwd (seq 0 (length (ll_tokens l)))) (t_find l).
Proof. rewrite <- flat_one. apply follows_flat. intros i. apply follows_ask. intros x. apply follows_done. Qed.
Lemma nodup_fwd a n : NoDup (map Fwd (seq a n)).
Proof. apply FinFun.Injective_map_NoDup; [intros x y E; injection E; auto|apply seq_NoDup]. Qed.
Lemma nodup_both a n : NoDup (flat_map (fun i => [Fwd i; Bwd i]) (seq a n)).
Proof.
  revert a. induction n as [|n IH]; intros a; [constructor|]. cbn [seq flat_map app].
  assert (H : forall d, In d (flat_map (fun i => [Fwd i; Bwd i]) (seq (S a) n)) -> exists i, a < i /\ (d = Fwd i \/ d = Bwd i)).
  { intros d Hd. apply in_flat_map in Hd as (i & Hi & Hd). apply in_seq in Hi. exists i. cbn in Hd. split; [lia|]. destruct Hd as [<-|[<-|[]]]; auto. }
  constructor; [|constructor; [|apply IH]].
  - cbn. intros [E|E]; [discriminate|]. apply H in E as (i & Hi & [E|E]); [injection E as E; lia|discriminate].
  - intros E. apply H in E as (i & Hi & [E|E]); [discriminate|injection E as E; lia].
Qed.

(** ** C84 *)

(** Each method asks each question at most once, in the order of the code. *)
Lemma thm_C84_asked :
  forall A M s (mm : mem_matcher M A) (st : M),
    let l := line_of s in
    let within := seq (start_idx s) (S (end_idx s) - start_idx s) in
    let fwd_in := map Fwd within in
    let after_it := if Nat.eqb (S (end_idx s)) (line_len s) then [] else [Fwd (S (end_idx s))] in
    let before_it := if Nat.eqb (start_idx s) 0 then [] else [Bwd (start_idx s - 1)] in
    asks_in_turn l fwd_in (fun M => mem_find_by s) (find_by s) mm st
    /\ asks_in_turn l fwd_in (fun M => mem_find_first_by s) (find_first_by s) mm st
    /\ asks_in_turn l fwd_in (fun M => mem_split_by s) (split_by s) mm st
    /\ asks_in_turn l (flat_map (fun i => [Fwd i; Bwd i]) within) (fun M => mem_find_both s) (find_by_forwards_and_backwards s) mm st
    /\ asks_in_turn l after_it (fun M => mem_match_forwards s) (match_forwards s) mm st
    /\ asks_in_turn l after_it (fun M => mem_match_first_forwards s) (match_first_forwards s) mm st
    /\ asks_in_turn l before_it (fun M => mem_match_backwards s) (match_backwards s) mm st
    /\ asks_in_turn l before_it (fun M => mem_match_first_backwards s) (match_first_backwards s) mm st
    /\ (forall from_start from_end : bool,
          asks_in_turn l ((if from_start then [Fwd (start_idx s)] else []) ++ (if from_end then [Bwd (end_idx s)] else []))
            (fun M mm => mem_trim_selection s mm from_start from_end) (fun m => trim_selection s m from_start from_end) mm st).
Proof.
  intros A M s mm st l within fwd_in after_it before_it.
  assert (Hf : follows (A := A) after_it (t_forwards s)).
  { unfold after_it, t_forwards. destruct (Nat.eqb (S (end_idx s)) (line_len s)); [apply follows_done|].
    apply follows_ask. intros x. apply follows_done. }
  assert (Hb : follows (A := A) before_it (t_backwards s)).
  { unfold before_it, t_backwards. destruct (Nat.eqb (start_idx s) 0); [apply follows_done|].
    apply follows_ask. intros x. apply follows_done. }
  assert (Na : NoDup after_it). { unfold after_it. destruct (Nat.eqb (S (end_idx s)) (line_len s)); [constructor|apply NoDup_cons; [intros []|constructor]]. }
  assert (Nb : NoDup before_it). { unfold before_it. destruct (Nat.eqb (start_idx s) 0); [constructor|apply NoDup_cons; [intros []|constructor]]. }
  assert (Nf : NoDup fwd_in) by apply nodup_fwd.
  split; [|split; [|split; [|split; [|split; [|split; [|split; [|split]]]]]]].
  - apply (asks_by l (t_find_by s)); [intros; apply find_by_mem|intros; apply find_by_pure|try assumption..]. apply follows_find_by.
  - apply (asks_by l (then_ (@hd_opt _) (t_find_by s))); auto.
    + intros. apply then_mem. intros. apply find_by_mem.
    + intros. apply then_pure, find_by_pure.
    + apply follows_then, follows_find_by.
  - apply (asks_by l (then_ (split_of s) (t_find_by s))); [intros; apply split_mem|intros; apply split_pure|try assumption..].
    apply follows_then, follows_find_by.
  - apply (asks_by l (t_find_both s)); [intros; apply both_mem|intros; apply both_pure|apply follows_both|apply nodup_both].
  - apply (asks_by l (t_forwards s)); [intros; apply forwards_mem|intros; apply forwards_pure|try assumption..].
  - apply (asks_by l (then_ (@hd_opt _) (t_forwards s))); auto using @follows_then.
    + intros. apply then_mem. intros. apply forwards_mem.
    + intros. apply then_pure, forwards_pure.
  - apply (asks_by l (t_backwards s)); [intros; apply backwards_mem|intros; apply backwards_pure|try assumption..].
  - apply (asks_by l (then_ (@hd_opt _) (t_backwards s))); auto using @follows_then.
    + intros. apply then_mem. intros. apply backwards_mem.
    + intros. apply then_pure, backwards_pure.
  - intros fs fe. apply (asks_by l (t_trim s fs fe)); [intros; apply trim_mem|intros; apply trim_pure|try assumption..].
    + unfold t_trim. apply follows_bind.
      * destruct fs; [|apply follows_done]. apply follows_ask. intros x. apply follows_done.
      * intros ns. rewrite <- (app_nil_r (if fe then _ else _)). apply follows_bind; [|intros; apply follows_done].
        destruct fe; [|apply follows_done]. apply follows_ask. intros x. apply follows_done.
    + destruct fs, fe; cbn; repeat constructor; cbn; intuition discriminate.
Qed.

Lemma thm_C84_asked_line :
  forall A M l (mm : mem_matcher M A) (st : M),
    asks_in_turn l (map Fwd (seq 0 (length (ll_tokens l)))) (fun M => mem_find l) (find l) mm st.
Proof.
  intros. apply (asks_by l (t_find l)); [intros; apply find_mem|intros; apply find_pure|apply follows_find|apply nodup_fwd].
Qed.

(** Matchers without memory: the methods are those of the other theorems. *)
Lemma thm_C84_memoryless :
  forall A M s (m : matcher A) (st : M),
    mem_find_by s (memoryless m) st = (st, find_by s m)
    /\ mem_find_first_by s (memoryless m) st = (st, find_first_by s m)
    /\ mem_split_by s (memoryless m) st = (st, split_by s m)
    /\ mem_find_both s (memoryless m) st = (st, find_by_forwards_and_backwards s m)
    /\ mem_match_forwards s (memoryless m) st = (st, match_forwards s m)
    /\ mem_match_first_forwards s (memoryless m) st = (st, match_first_forwards s m)
    /\ mem_match_backwards s (memoryless m) st = (st, match_backwards s m)
    /\ mem_match_first_backwards s (memoryless m) st = (st, match_first_backwards s m)
    /\ (forall from_start from_end : bool,
          mem_trim_selection s (memoryless m) from_start from_end st = (st, trim_selection s m from_start from_end))
    /\ (forall l, mem_find l (memoryless m) st = (st, find l m)).
Proof.
  intros A M s m st.
  split; [rewrite find_by_mem, find_by_pure; apply ask_memoryless|].
  split. { unfold mem_find_first_by. rewrite (then_mem (line_of s) _ (t_find_by s) (memoryless m)) by (intros; apply find_by_mem).
    unfold find_first_by. rewrite (then_pure (line_of s) _ (t_find_by s) m) by apply find_by_pure. apply ask_memoryless. }
  split; [rewrite split_mem, split_pure; apply ask_memoryless|].
  split; [rewrite both_mem, both_pure; apply ask_memoryless|].
  split; [rewrite forwards_mem, forwards_pure; apply ask_memoryless|].
  split. { unfold mem_match_first_forwards. rewrite (then_mem (line_of s) _ (t_forwards s) (memoryless m)) by (intros; apply forwards_mem).
    unfold match_first_forwards. rewrite (then_pure (line_of s) _ (t_forwards s) m) by apply forwards_pure. apply ask_memoryless. }
  split; [rewrite backwards_mem, backwards_pure; apply ask_memoryless|].
  split. { unfold mem_match_first_backwards. rewrite (then_mem (line_of s) _ (t_backwards s) (memoryless m)) by (intros; apply backwards_mem).
    unfold match_first_backwards. rewrite (then_pure (line_of s) _ (t_backwards s) m) by apply backwards_pure. apply ask_memoryless. }
  split; [intros; rewrite trim_mem, trim_pure; apply ask_memoryless|].
  intros l. rewrite find_mem, find_pure. apply ask_memoryless.
Qed.

(** The combinators. *)
Lemma mem_map_pure {M A B} (f : A -> mem M B) (g : A -> res B) xs st :
  (forall x st, f x st = (st, g x)) -> mem_mapM f xs st = (st, mapM g xs).
Proof.
  intros H. revert st. induction xs as [|x xs IH]; intros st; [reflexivity|]. cbn. unfold mbind at 1. rewrite H.
  destruct (g x); cbn; try reflexivity. unfold mbind. rewrite IH. destruct (mapM g xs); reflexivity.
Qed.
Lemma mem_flat_pure {M A B} (f : A -> mem M (list B)) g xs st :
  (forall x st, f x st = (st, g x)) -> mem_flat_mapM f xs st = (st, flat_mapM g xs).
Proof.
  intros H. unfold mem_flat_mapM, mbind. rewrite (mem_map_pure f g xs st H). unfold flat_mapM, rmap.
  destruct (mapM g xs); reflexivity.
Qed.

Lemma thm_C84_combinators :
  forall A B C M (ma : matcher A) (mb : matcher B) (mc : matcher C) d l (st : M),
    mem_all2 (memoryless ma) (memoryless mb) d l st = (st, x_all2 ma mb d l)
    /\ mem_all3 (memoryless ma) (memoryless mb) (memoryless mc) d l st = (st, x_all3 ma mb mc d l)
    /\ mem_any_of2 (memoryless ma) (memoryless mb) d l st = (st, x_any_of2 ma mb d l)
    /\ mem_any_of3 (memoryless ma) (memoryless mb) (memoryless mc) d l st = (st, x_any_of3 ma mb mc d l)
    /\ mem_seq2 (memoryless ma) (memoryless mb) d l st = (st, x_seq2 ma mb d l)
    /\ mem_seq3 (memoryless ma) (memoryless mb) (memoryless mc) d l st = (st, x_seq3 ma mb mc d l).
Proof.
  intros A B C M ma mb mc d l st.
  assert (Hg : forall T (mt : matcher T) i (st : M), mem_go_after (memoryless mt) d i l st = (st, go_after mt d i l)).
  { intros T mt i st'. unfold mem_go_after, go_after. destruct (dir_after d i l); reflexivity. }
  split; [unfold mem_all2, x_all2, mbind, memoryless; destruct (mb d l); [destruct (ma d l)|..]; reflexivity|].
  split; [unfold mem_all3, x_all3, mbind, memoryless; destruct (mb d l); [destruct (mc d l); [destruct (ma d l)|..]|..]; reflexivity|].
  split; [unfold mem_any_of2, x_any_of2, mbind, memoryless; destruct (ma d l) as [[|]| |]; [destruct (mb d l)|..]; reflexivity|].
  split; [unfold mem_any_of3, x_any_of3, mbind, memoryless; destruct (ma d l) as [[|]| |];
          [destruct (mb d l) as [[|]| |]; [destruct (mc d l)|..]|..]; reflexivity|].
  split.
  - unfold mem_seq2, x_seq2, mbind at 1, memoryless at 1. destruct (ma d l) as [al| |]; try reflexivity. cbn [bind].
    apply mem_flat_pure. intros [a i] st'. unfold mbind. rewrite Hg. destruct (go_after mb d i l); reflexivity.
  - unfold mem_seq3, x_seq3, mbind at 1, memoryless at 1. destruct (ma d l) as [al| |]; try reflexivity. cbn [bind].
    apply mem_flat_pure. intros [a i] st'. unfold mbind at 1. rewrite Hg. destruct (go_after mb d i l) as [bl| |]; try reflexivity.
    cbn [bind]. apply mem_flat_pure. intros [b j] st2. unfold mbind. rewrite Hg. destruct (go_after mc d j l); reflexivity.
Qed.

(** The order in which the combinators ask their parts (numbered 1, 2, 3). *)
Lemma mem_flat_log {A B} (f : A -> mem (list (nat * direction)) (list B)) (g : A -> list (nat * direction)) (h : A -> list B) xs :
  (forall x log, In x xs -> f x log = (log ++ g x, Ok (h x))) ->
  forall log, mem_flat_mapM f xs log = (log ++ flat_map g xs, Ok (flat_map h xs)).
Proof.
  intros H log. unfold mem_flat_mapM, mbind at 1.
  assert (E : mem_mapM f xs log = (log ++ flat_map g xs, Ok (map h xs))).
  { revert log. induction xs as [|x xs IH]; intros log; [cbn; rewrite app_nil_r; reflexivity|].
    cbn. unfold mbind at 1. rewrite H by (left; reflexivity). unfold mbind.
    rewrite IH by (intros; apply H; right; assumption). rewrite <- app_assoc. reflexivity. }
  rewrite E. unfold lift. rewrite (flat_map_concat_map h). reflexivity.
Qed.

Lemma noting_after {B} n (mb : matcher B) d i l log bl :
  go_after mb d i l = Ok bl ->
  mem_go_after (noting n mb) d i l log = (log ++ map (pair n) (opt_list (dir_after d i l)), Ok bl).
Proof.
  unfold mem_go_after, go_after. destruct (dir_after d i l) as [d'|]; cbn; intros E.
  - unfold noting. rewrite E. reflexivity.
  - injection E as <-. unfold lift. rewrite app_nil_r. reflexivity.
Qed.

Lemma thm_C84_order :
  forall A B C (ma : matcher A) (mb : matcher B) (mc : matcher C) d l al bl cl,
    ma d l = Ok al -> mb d l = Ok bl -> mc d l = Ok cl ->
    fst (mem_all2 (noting 1 ma) (noting 2 mb) d l []) = [(2, d); (1, d)]
    /\ fst (mem_all3 (noting 1 ma) (noting 2 mb) (noting 3 mc) d l []) = [(2, d); (3, d); (1, d)]
    /\ fst (mem_any_of2 (noting 1 ma) (noting 2 mb) d l []) =
         (1, d) :: (match al with [] => [(2, d)] | _ => [] end)
    /\ fst (mem_any_of3 (noting 1 ma) (noting 2 mb) (noting 3 mc) d l []) =
         (1, d) :: (match al with [] => (2, d) :: match bl with [] => [(3, d)] | _ => [] end | _ => [] end).
Proof.
  intros A B C ma mb mc d l al bl cl Ea Eb Ec.
  unfold mem_all2, mem_all3, mem_any_of2, mem_any_of3, mbind, noting. rewrite Ea, Eb, Ec.
  split; [reflexivity|]. split; [reflexivity|]. split; [destruct al; reflexivity|].
  destruct al; [|reflexivity]. destruct bl; reflexivity.
Qed.

(** A sequence asks its second part once for each match of the first, in turn (so, the same
    question again, if two matches end at the same token); and the third likewise. *)
Lemma thm_C84_order_seq :
  forall A B C (ma : matcher A) (mb : matcher B) (mc : matcher C) d l al (fb : direction -> list (B * nat)) (fc : direction -> list (C * nat)),
    ma d l = Ok al ->
    (forall i d', dir_after d i l = Some d' -> mb d' l = Ok (fb d') /\ mc d' l = Ok (fc d')) ->
    let next (i : nat) := opt_list (dir_after d i l) in
    fst (mem_seq2 (noting 1 ma) (noting 2 mb) d l []) =
      (1, d) :: flat_map (fun x => map (pair 2) (next (snd x))) al
    /\ fst (mem_seq3 (noting 1 ma) (noting 2 mb) (noting 3 mc) d l []) =
      (1, d) :: flat_map (fun x => flat_map (fun d' => (2, d') :: flat_map (fun y => map (pair 3) (next (snd y))) (fb d'))
                                     (next (snd x))) al.
Proof.
  intros A B C ma mb mc d l al fb fc Ea E next.
  assert (Gb : forall i, go_after mb d i l = Ok (flat_map fb (next i))).
  { intros i. unfold go_after, next. destruct (dir_after d i l) eqn:Ed; cbn; [rewrite app_nil_r; apply (E i _ Ed)|reflexivity]. }
  assert (Gc : forall i, go_after mc d i l = Ok (flat_map fc (next i))).
  { intros i. unfold go_after, next. destruct (dir_after d i l) eqn:Ed; cbn; [rewrite app_nil_r; apply (E i _ Ed)|reflexivity]. }
  split.
  - unfold mem_seq2, mbind at 1, noting at 1. rewrite Ea.
    rewrite (mem_flat_log _ (fun x => map (pair 2) (next (snd x)))
               (fun x => map (fun '(b, j) => ((fst x, b), j)) (flat_map fb (next (snd x))))); [reflexivity|].
    intros [a i] log _. unfold mbind. rewrite (noting_after 2 mb d i l log _ (Gb i)). reflexivity.
  - unfold mem_seq3, mbind at 1, noting at 1. rewrite Ea.
    rewrite (mem_flat_log _ (fun x => flat_map (fun d' => (2, d') :: flat_map (fun y => map (pair 3) (next (snd y))) (fb d')) (next (snd x)))
               (fun x => flat_map (fun '(b, j) => map (fun '(c, k) => ((fst x, b, c), k)) (flat_map fc (next j))) (flat_map fb (next (snd x)))));
      [reflexivity|].
    intros [a i] log _. unfold mbind at 1. rewrite (noting_after 2 mb d i l log _ (Gb i)).
    rewrite (mem_flat_log _ (fun y => map (pair 3) (next (snd y)))
               (fun y => map (fun '(c, k) => ((a, fst y, c), k)) (flat_map fc (next (snd y))))).
    + cbn [fst snd]. f_equal.
      * rewrite <- app_assoc. f_equal. unfold next. destruct (dir_after d i l); cbn; rewrite ?app_nil_r; reflexivity.
      * f_equal. apply flat_map_ext. intros [b j]. reflexivity.
    + intros [b j] log' _. unfold mbind. rewrite (noting_after 3 mc d j l log' _ (Gc j)). reflexivity.
Qed.

(** Resolvers: one question at each run, about the whole line; none about an empty line. *)
Lemma thm_C84_run :
  forall M t id l (r : mem_resolver M t) (st : M),
    (ll_tokens l = [] -> mem_run id l r st = (st, Ok l))
    /\ (ll_tokens l <> [] ->
        mem_run id l r st = (fst (r (whole id l) st), run id l (fun _ => snd (r (whole id l) st)))).
Proof.
  intros M t id l r st. unfold mem_run, run. split.
  - intros ->. reflexivity.
  - intros H. destruct (ll_tokens l); [easy|]. unfold mbind. destruct (r (whole id l) st) as [st' [g| |]]; reflexivity.
Qed.

Lemma thm_C84_history :
  forall M l lg (st : M), remembering M l lg st -> History l lg.
Proof.
  intros M l lg st H. induction H as [| l lg st t id r g l' st' H IH Hn Eg Er | l lg st t id r l' st' H IH Hn Er |]; auto.
  - destruct (thm_C84_run M t id l r st) as [_ E]. rewrite (E Hn) in Er. injection Er as _ Er.
    exact (H_run l lg t id (fun _ => snd (r (whole id l) st)) g l' IH Hn Eg Er).
  - destruct (thm_C84_run M t id l r st) as [E _]. rewrite (E Hn) in Er. injection Er as _ <-. exact IH.
Qed.

End ThmState.
