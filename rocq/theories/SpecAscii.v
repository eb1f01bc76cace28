(** Specification vocabulary for ASCII text, read character by character (C89): the word
    boundary rules of Unicode Standard Annex #29 on ASCII characters, and a grammar of tokens. *)

From Verif Require Export SpecWritten.

Local Open Scope N_scope.

Definition ascii (s : str) : Prop := Forall (fun c => c < 128) s.
Definition ascii_letter (c : char) : Prop := 65 <= c <= 90 \/ 97 <= c <= 122.
Definition ascii_digit (c : char) : Prop := 48 <= c <= 57.
(** tab, line feed, vertical tab, form feed, carriage return, space *)
Definition ascii_space (c : char) : Prop := In c [9; 10; 11; 12; 13; 32].

Section Boundaries.
(** whether the version of Unicode lets a colon stand between two letters *)
Context (colon : bool).

(** period, apostrophe, perhaps colon: may stand between two letters *)
Definition mid_letter (c : char) : Prop := In c [46; 39] \/ (c = 58 /\ colon = true).
(** comma, semicolon, period, apostrophe: may stand between two digits *)
Definition mid_number (c : char) : Prop := In c [44; 59; 46; 39].

(** The rules that forbid a word boundary, between what is [before] and what comes [after]
    (UAX #29; the other rules that forbid one are about characters that are not ASCII). *)
Inductive unbroken : str -> str -> Prop :=
| WB3 b a : unbroken (b ++ [13]) (10 :: a)
| WB3d b a : unbroken (b ++ [32]) (32 :: a)
| WB5 b x y a : ascii_letter x -> ascii_letter y -> unbroken (b ++ [x]) (y :: a)
| WB6 b x m y a : ascii_letter x -> mid_letter m -> ascii_letter y -> unbroken (b ++ [x]) (m :: y :: a)
| WB7 b x m y a : ascii_letter x -> mid_letter m -> ascii_letter y -> unbroken (b ++ [x; m]) (y :: a)
| WB8 b x y a : ascii_digit x -> ascii_digit y -> unbroken (b ++ [x]) (y :: a)
| WB9 b x y a : ascii_letter x -> ascii_digit y -> unbroken (b ++ [x]) (y :: a)
| WB10 b x y a : ascii_digit x -> ascii_letter y -> unbroken (b ++ [x]) (y :: a)
| WB11 b x m y a : ascii_digit x -> mid_number m -> ascii_digit y -> unbroken (b ++ [x; m]) (y :: a)
| WB12 b x m y a : ascii_digit x -> mid_number m -> ascii_digit y -> unbroken (b ++ [x]) (m :: y :: a)
| WB13a b x a : ascii_letter x \/ ascii_digit x \/ x = 95 -> unbroken (b ++ [x]) (95 :: a)
| WB13b b y a : ascii_letter y \/ ascii_digit y -> unbroken (b ++ [95]) (y :: a).

Local Close Scope N_scope.

(** Where a text may be cut: at its ends, and where no rule forbids it. *)
Definition may_cut (before after : str) : Prop := before = [] \/ after = [] \/ ~ unbroken before after.

End Boundaries.

Section SpecAscii.
Context {UC : Unicode} {U : UserTypes} (colon : bool).

(** What the segmenter and the tables do on ASCII text. *)
Record AsciiLaws : Prop := {
  cut_where_allowed : forall s ws1 ws2, ascii s -> u_words s = ws1 ++ ws2 -> may_cut colon (concat ws1) (concat ws2);
  cut_wherever_allowed : forall s ws1 w1 w2 ws2, ascii s -> u_words s = ws1 ++ (w1 ++ w2) :: ws2 ->
    w1 <> [] -> w2 <> [] -> unbroken colon (concat ws1 ++ w1) (w2 ++ concat ws2);
  ascii_alphabetic : forall c, (c < 128)%N -> (u_alphabetic c = true <-> ascii_letter c);
  ascii_whitespace : forall c, (c < 128)%N -> (u_whitespace c = true <-> ascii_space c);
}.

(** A text token with what stands before and after it. *)
Definition token_at (l : LLLine) (before text : str) (tag : TextTag) (after : str) : Prop :=
  exists ts1 ts2, map token (ll_tokens l) = ts1 ++ LText text tag :: ts2
    /\ concat (map ltext ts1) = before /\ concat (map ltext ts2) = after.

Definition ends_in (s : str) (P : char -> Prop) : Prop := exists s' c, s = s' ++ [c] /\ P c.
Definition starts_in (s : str) (P : char -> Prop) : Prop := exists c s', s = c :: s' /\ P c.
Definition is (c : char) : char -> Prop := eq c.

(** White space: as many spaces as there are, a line end, or one other character. *)
Definition space_piece (before text after : str) : Prop :=
  (text <> [] /\ Forall (is 32%N) text /\ ~ ends_in before (is 32%N) /\ ~ starts_in after (is 32%N))
  \/ text = [13; 10]%N
  \/ (text = [13%N] /\ ~ starts_in after (is 10%N))
  \/ (text = [10%N] /\ ~ ends_in before (is 13%N))
  \/ (exists c, text = [c] /\ In c [9; 11; 12]%N).

(** Digits, as many as there are. *)
Definition number_piece (before text after : str) : Prop :=
  text <> [] /\ Forall ascii_digit text /\ ~ ends_in before ascii_digit /\ ~ starts_in after ascii_digit.

(** Letters, perhaps with single colons, periods and apostrophes between them. *)
Inductive dotted : str -> Prop :=
| D_one c : ascii_letter c -> dotted [c]
| D_letter c s : ascii_letter c -> dotted s -> dotted (c :: s)
| D_mid c m s : ascii_letter c -> mid_letter colon m -> dotted s -> dotted (c :: m :: s).

(** ... as many as there are. *)
Definition letters_piece (before text after : str) : Prop :=
  dotted text
  /\ ~ ends_in before ascii_letter
  /\ ~ (exists b x m, before = b ++ [x; m] /\ ascii_letter x /\ mid_letter colon m)
  /\ ~ starts_in after ascii_letter
  /\ ~ (exists m y a, after = m :: y :: a /\ mid_letter colon m /\ ascii_letter y).

(** The characters of which a word may consist. *)
Definition word_char (c : char) : Prop := ascii_letter c \/ c = 39%N.

(** Text in which no letter touches a digit, and without underscores. *)
Definition plain_text (s : str) : Prop :=
  ascii s /\ ~ In 95%N s
  /\ (forall b x y a, s = b ++ x :: y :: a -> ~ (ascii_letter x /\ ascii_digit y) /\ ~ (ascii_digit x /\ ascii_letter y)).

(** The tokens of such a text, by the characters. *)
Definition lexeme (before text : str) (tag : TextTag) (after : str) : Prop :=
  match tag with
  | NATN => number_piece before text after
  | SPACE => space_piece before text after
  | WORD => letters_piece before text after /\ Forall word_char text
  | PUNC => exists c, text = [c] /\ documented_punctuation c
      /\ ~ (mid_letter colon c /\ ends_in before ascii_letter /\ starts_in after ascii_letter)
  | SYMB => (letters_piece before text after /\ ~ Forall word_char text)
      \/ exists c, text = [c] /\ ~ documented_punctuation c /\ ~ ascii_letter c /\ ~ ascii_digit c
           /\ ~ ascii_space c
  end.

(** A piece of the text with a word boundary at both ends and none inside. *)
Definition chunk (before text after : str) : Prop :=
  text <> [] /\ may_cut colon before (text ++ after) /\ may_cut colon (before ++ text) after
  /\ forall x y, x <> [] -> y <> [] -> text = x ++ y -> unbroken colon (before ++ x) (y ++ after).

(** Parts of a chunk that starts with a digit, by what the chunk has before and after them. *)
Definition part_of_number (before text : str) (tag : TextTag) (after : str) : Prop :=
  match tag with
  | NATN => number_piece before text after
  | WORD => text <> [] /\ Forall ascii_letter text /\ ~ ends_in before ascii_letter /\ ~ starts_in after ascii_letter
  | PUNC => exists c, text = [c] /\ ~ ascii_digit c /\ ~ ascii_letter c
  | SPACE | SYMB => False
  end.

(** Other chunks. *)
Definition whole_chunk (text : str) (tag : TextTag) : Prop :=
  let space := Forall ascii_space text in
  let punctuation := exists c, text = [c] /\ documented_punctuation c in
  let word := starts_in text ascii_letter /\ Forall word_char text in
  match tag with
  | SPACE => space
  | PUNC => punctuation
  | WORD => word
  | SYMB => ~ space /\ ~ punctuation /\ ~ word
  | NATN => False
  end.

(** The tokens of any ASCII text. *)
Definition any_lexeme (before text : str) (tag : TextTag) (after : str) : Prop :=
  exists b x y a, before = b ++ x /\ after = y ++ a /\ chunk b (x ++ text ++ y) a
    /\ ((starts_in (x ++ text ++ y) ascii_digit /\ part_of_number x text tag y)
        \/ (~ starts_in (x ++ text ++ y) ascii_digit /\ x = [] /\ y = [] /\ whole_chunk text tag)).

(** Beginning or end of the text, or white space. *)
Definition blank_before (before : str) : Prop := before = [] \/ ends_in before ascii_space.
Definition blank_after (after : str) : Prop := after = [] \/ starts_in after ascii_space.

(** Inputs whose texts are ASCII. *)
Definition ascii_input (it : InputToken) : Prop := match it with InText text _ => ascii text | InCustom _ _ => True end.
End SpecAscii.
