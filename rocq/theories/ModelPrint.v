(** Model of the derived [Debug] of tokens (src/ll_line.rs:38-54) and of what it is made of in std:
    [Debug] of [char], [str] and slices.  The plain form [{:?}]; the form [{:#?}] is in ModelIndent.v. *)

From Coq Require Import Strings.String Strings.Ascii.
From Verif Require Export ModelDebug.

Local Open Scope string_scope.
Local Open Scope list_scope.

(** The tables of std (external) asked for every character printed at src/ll_line.rs:40 and
    src/ll_line.rs:129-132: [is_printable], [is_grapheme_extended], and whether the null character
    has a short form (newer versions of std). *)
Record PrintTable : Type := mkPrintTable {
  printable : char -> bool;
  grapheme_extended : char -> bool;
  short_nul : bool;
}.

(** a hexadecimal digit, [char::escape_unicode] (external), for src/ll_line.rs:40 *)
Definition hex_digit (n : N) : char := if (n <? 10)%N then (48 + n)%N else (87 + n)%N.

(** the hexadecimal digits of a number, [char::escape_unicode] (external), for src/ll_line.rs:40;
    [fuel] bounds their number *)
Fixpoint hex_upto (fuel : nat) (n : N) : str :=
  match fuel with
  | O => []
  | S fuel' => if (n <? 16)%N then [hex_digit n] else hex_upto fuel' (n / 16)%N ++ [hex_digit (n mod 16)%N]
  end.

(** [char::escape_unicode] (external), for src/ll_line.rs:40 *)
Definition escape_unicode (c : char) : str :=
  [92; 117; 123]%N ++ hex_upto (S (N.size_nat c)) c ++ [125%N].

(** [char::escape_debug_ext] (external), for src/ll_line.rs:40; [single] and [double] say whether
    the two quotes are escaped; characters that extend graphemes are. *)
Definition escape_debug (tb : PrintTable) (single double : bool) (c : char) : str :=
  if (c =? 0)%N && short_nul tb then [92; 48]%N
  else if (c =? 9)%N then [92; 116]%N
  else if (c =? 13)%N then [92; 114]%N
  else if (c =? 10)%N then [92; 110]%N
  else if (c =? 34)%N && double then [92; 34]%N
  else if (c =? 39)%N && single then [92; 39]%N
  else if (c =? 92)%N then [92; 92]%N
  else if grapheme_extended tb c then escape_unicode c
  else if printable tb c then [c]
  else escape_unicode c.

(** [Debug for char] (external), as the attribute of src/ll_line.rs:129-132 is printed by
    src/type_bucket.rs:232 *)
Definition dbg_char (tb : PrintTable) (c : char) : str :=
  [39%N] ++ escape_debug tb true false c ++ [39%N].

(** [Debug for str] (external), for the text of src/ll_line.rs:40 *)
Definition dbg_str (tb : PrintTable) (s : str) : str :=
  [34%N] ++ flat_map (escape_debug tb false true) s ++ [34%N].

(** derived [Debug], src/ll_line.rs:38-43 *)
Definition dbg_ltoken (tb : PrintTable) (t : LToken) : str :=
  match t with
  | LText text tag => lit "Text(" ++ dbg_str tb text ++ lit ", " ++ dbg_text_tag tag ++ lit ")"
  | LValue => lit "Value"
  end.

(** derived [Debug], src/ll_line.rs:45-54 *)
Definition dbg_lltoken (tb : PrintTable) (t : LLToken) : str :=
  lit "LLToken { token_idx: " ++ dbg_N (N.of_nat (token_idx t))
  ++ lit ", pos_starts_at: " ++ dbg_N (pos_starts_at t)
  ++ lit ", pos_ends_at: " ++ dbg_N (pos_ends_at t)
  ++ lit ", token: " ++ dbg_ltoken tb (token t) ++ lit " }".

(** the items of a slice, each but the first after a comma ([Debug] of slices is external), for
    src/ll_line.rs:208-210 *)
Fixpoint dbg_items {A} (da : A -> str) (l : list A) : str :=
  match l with
  | [] => []
  | [a] => da a
  | a :: l' => da a ++ lit ", " ++ dbg_items da l'
  end.
(** [Debug] of slices (external), for what src/ll_line.rs:208-210 [ll_tokens] returns *)
Definition dbg_slice {A} (da : A -> str) (l : list A) : str := lit "[" ++ dbg_items da l ++ lit "]".
