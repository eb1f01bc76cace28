(** A concrete instance of the external parameters of the model, used only for
    examples and counterexamples: character tables and word boundaries of the
    code points below 256, the typographic apostrophe (U+2019) and the euro sign (UAX #29 word boundary rules WB3 to WB13b and WB999,
    without the Format character U+00AD, which is treated as any other), and two
    user types.  The general theorems hold for every instance. *)

From Coq Require Export String Ascii.
From Verif Require Export SpecTokens.

Local Open Scope N_scope.

(** Code points of an ASCII literal *)
Fixpoint of_string (s : string) : str :=
  match s with
  | EmptyString => []%list
  | String c s' => (N_of_ascii c :: of_string s')%list
  end.
Coercion of_string : string >-> str.

Definition between (a c b : N) : bool := (a <=? c) && (c <=? b).

Definition latin_alphabetic (c : char) : bool :=
  between 65 c 90 || between 97 c 122 || (c =? 170) || (c =? 181) || (c =? 186)
  || between 192 c 214 || between 216 c 246 || between 248 c 255.
Definition latin_whitespace (c : char) : bool :=
  between 9 c 13 || (c =? 32) || (c =? 133) || (c =? 160).
Definition latin_lower (c : char) : char :=
  if between 65 c 90 || between 192 c 214 || between 216 c 222 then c + 32 else c.
Definition latin_width (c : char) : nat :=
  if between 32 c 126 || between 160 c 255 || (c =? 8217) || (c =? 8364) then 1%nat else 0%nat.

(** Word_Break property values *)
Inductive wb := CR | LF | Newline | WSegSpace | ALetter | Numeric | MidLetter | MidNum | MidNumLetQ | ExtendNumLet | Other.

Definition wb_of (c : char) : wb :=
  if c =? 13 then CR
  else if c =? 10 then LF
  else if (c =? 11) || (c =? 12) || (c =? 133) then Newline
  else if c =? 32 then WSegSpace
  else if latin_alphabetic c then ALetter
  else if between 48 c 57 then Numeric
  else if (c =? 58) || (c =? 183) then MidLetter          (* : and middle dot *)
  else if (c =? 44) || (c =? 59) then MidNum              (* , ; *)
  else if (c =? 46) || (c =? 39) || (c =? 8217) then MidNumLetQ   (* . and the single quotes *)
  else if c =? 95 then ExtendNumLet                       (* _ *)
  else Other.

(** Is there no boundary between [p] and [n]?  [p2] precedes [p], [n2] follows [n]. *)
Definition joined (p2 : option wb) (p n : wb) (n2 : option wb) : bool :=
  match p, n with
  | CR, LF => true                                                  (* WB3 *)
  | (CR | LF | Newline), _ => false                                 (* WB3a *)
  | _, (CR | LF | Newline) => false                                 (* WB3b *)
  | WSegSpace, WSegSpace => true                                    (* WB3d *)
  | ALetter, ALetter => true                                        (* WB5 *)
  | ALetter, (MidLetter | MidNumLetQ) =>
      match n2 with Some ALetter => true | _ => false end           (* WB6 *)
  | MidLetter, ALetter =>
      match p2 with Some ALetter => true | _ => false end           (* WB7 *)
  | MidNumLetQ, ALetter =>
      match p2 with Some ALetter => true | _ => false end           (* WB7 *)
  | Numeric, Numeric => true                                        (* WB8 *)
  | ALetter, Numeric => true                                        (* WB9 *)
  | Numeric, ALetter => true                                        (* WB10 *)
  | (MidNum | MidNumLetQ), Numeric =>
      match p2 with Some Numeric => true | _ => false end           (* WB11 *)
  | Numeric, (MidNum | MidNumLetQ) =>
      match n2 with Some Numeric => true | _ => false end           (* WB12 *)
  | (ALetter | Numeric | ExtendNumLet), ExtendNumLet => true        (* WB13a *)
  | ExtendNumLet, (ALetter | Numeric) => true                       (* WB13b *)
  | _, _ => false                                                   (* WB999 *)
  end.

(** The segments of [p :: rest], where [p2] precedes [p]. *)
Fixpoint latin_words_from (p2 : option wb) (p : char) (rest : str) : list str :=
  match rest with
  | []%list => [[p]]%list
  | (n :: rest')%list =>
      let n2 := match rest' with (c :: _)%list => Some (wb_of c) | []%list => None end in
      let ws := latin_words_from (Some (wb_of p)) n rest' in
      if joined p2 (wb_of p) (wb_of n) n2
      then match ws with (w :: ws')%list => ((p :: w) :: ws')%list | []%list => [[p]]%list end
      else ([p] :: ws)%list
  end.
Definition latin_words (s : str) : list str :=
  match s with []%list => []%list | (p :: rest)%list => latin_words_from None p rest end.

#[global] Instance latin : Unicode := {|
  u_alphabetic := latin_alphabetic;
  u_whitespace := latin_whitespace;
  u_lower := map latin_lower;
  u_width := latin_width;
  u_words := latin_words;
|}.

(** Two user types: [TUser true] of numbers and [TUser false] of strings. *)
#[global] Instance users : UserTypes := {|
  uty := bool;
  uty_eq_dec := Bool.bool_dec;
  uden := fun b => if b then N else str;
|}.

Notation TNum := (TUser (U := users) true).
Notation TStr := (TUser (U := users) false).

Lemma latin_words_ok : forall rest p2 p,
  concat (latin_words_from p2 p rest) = (p :: rest)%list
  /\ latin_words_from p2 p rest <> []%list
  /\ Forall (fun w => w <> []%list) (latin_words_from p2 p rest).
Proof.
  induction rest as [|n rest IH]; intros p2 p; simpl.
  - repeat split; [discriminate|]. constructor; [discriminate|constructor].
  - set (n2 := match rest with (c :: _)%list => Some (wb_of c) | []%list => None end).
    destruct (IH (Some (wb_of p)) n) as (E & N & F).
    destruct (latin_words_from (Some (wb_of p)) n rest) as [|w ws] eqn:EW; [easy|].
    destruct (joined p2 (wb_of p) (wb_of n) n2).
    + simpl in *. rewrite E. repeat split; [discriminate|]. inversion F; subst. constructor; [discriminate|auto].
    + simpl in *. rewrite E. repeat split; [discriminate|]. constructor; [discriminate|auto].
Qed.

(** The assumptions of the theorems about the segmenter and the tables hold of it. *)
Lemma latin_segmenter : SegmenterLaws.
Proof.
  constructor.
  - intros [|p rest]; [reflexivity|]. apply latin_words_ok.
  - intros [|p rest] w Hin; [easy|]. destruct (latin_words_ok rest None p) as (_ & _ & F).
    rewrite Forall_forall in F. auto.
Qed.

Lemma latin_tables : CharLaws.
Proof.
  constructor; intros c Hc; apply existsb_exists in Hc; destruct Hc as (x & Hin & Hx); apply N.eqb_eq in Hx;
    subst x; repeat (destruct Hin as [<-|Hin]; [reflexivity|]); destruct Hin.
Qed.

(** Lowercasing twice is lowercasing once. *)
Lemma latin_lower_idem : forall s : str, u_lower (u_lower s) = u_lower s.
Proof.
  intros s. simpl. rewrite map_map. apply map_ext. intros c. unfold latin_lower at 2 3.
  destruct (between 65 c 90 || between 192 c 214 || between 216 c 222) eqn:E;
    [|unfold latin_lower; now rewrite E].
  unfold latin_lower, between in *. rewrite !orb_true_iff, !andb_true_iff, !N.leb_le in E.
  match goal with |- (if ?b then _ else _) = _ => destruct b eqn:E' end; [|reflexivity].
  rewrite !orb_true_iff, !andb_true_iff, !N.leb_le in E'. lia.
Qed.

(** The target of the examples. *)
Definition tg64 : Target := mkTarget 64 true.

(** A decimal parser: digits with at most one point. *)
Fixpoint read_digits (s : str) (acc : Z) : option Z :=
  match s with
  | []%list => Some acc
  | (c :: s')%list => if decimal_digit c then read_digits s' (10 * acc + Z.of_N (c - 48))%Z else None
  end.
Fixpoint cut_point (s : str) : str * option str :=
  match s with
  | []%list => ([]%list, None)
  | (c :: s')%list => if c =? 46 then ([]%list, Some s') else let '(a, b) := cut_point s' in ((c :: a)%list, b)
  end.
Definition parse_decimal (s : str) : option Decimal :=
  let '(a, b) := cut_point s in
  let f := match b with Some f => f | None => []%list end in
  match a with
  | []%list => None
  | _ => option_map (fun z => mkDecimal z (length f)) (read_digits (a ++ f) 0)
  end.
