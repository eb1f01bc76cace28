(** Model of src/ll_line/display.rs. *)

From Verif Require Export ModelSel.

Section Display.
Context {U : UserTypes} {UC : Unicode}.

(** src/ll_line/display.rs:4-7 [struct LLLineDisplay] *)
Record LLLineDisplay : Type := mkDisplay {
  disp_line : LLLine;
  include_attrs : list (LRange * str);
}.

(** src/ll_line/display.rs:97-102 [LLLineDisplay::new], src/lib.rs:36-38 [debug_line] *)
Definition display_new (l : LLLine) : LLLineDisplay := mkDisplay l [].

(** src/ll_line/display.rs:104-118 [include]; [dbg] is [T]'s [Debug].  A missing
    [values] entry contributes nothing ([Option::into_iter]). *)
Definition display_include (t : ty) (dbg : den t -> str) (d : LLLineDisplay) : res LLLineDisplay :=
  rows <- flat_mapM (fun range =>
            match map_get range_eqb (values (attrs (disp_line d))) range with
            | None => Ok []
            | Some tb => ds <- tb_get_debug tb t dbg;; Ok (map (fun s => (range, s)) (rev ds))
            end) (tm_get (ranges (attrs (disp_line d))) t);;
  Ok (mkDisplay (disp_line d) (include_attrs d ++ rows)).

(** src/ll_line/display.rs:120-123 [with] *)
Definition display_with (t : ty) (dbg : den t -> str) (d : LLLineDisplay) := display_include t dbg d.

(** [UnicodeWidthStr::width] of src/ll_line/display.rs:49,60: sum of the character widths (simplification:
    unicode-width 0.1 before 0.1.13; no multi-character sequences). *)
Fixpoint str_width (s : str) : nat :=
  match s with [] => 0 | c :: s' => u_width c + str_width s' end.

(** src/ll_line/display.rs:34 [SPACE_PADDING] *)
Definition padding : str := [32; 32]%N.

(** src/ll_line/display.rs:51-58, the text pushed for a token: "<>" for a value *)
Definition token_display (tok : LLToken) : str :=
  match token tok with LText s _ => s | LValue => [60; 62]%N end.

(** src/ll_line/display.rs:38-62, the loop building [opening_line] and the
    column vectors; [first] is [is_first] *)
Fixpoint opening (first : bool) (line : str) (starts ends : list nat) (toks : list LLToken)
  : str * list nat * list nat :=
  match toks with
  | [] => (line, starts, ends)
  | tok :: toks' =>
      let line1 := if first then line else line ++ padding in
      let starts' := starts ++ [str_width line1] in
      let line2 := line1 ++ token_display tok in
      let ends' := ends ++ [str_width line2] in
      opening false line2 starts' ends' toks'
  end.

(** the newline of src/ll_line/display.rs:70 *)
Definition c_newline : char := 10%N.
(** the space of src/ll_line/display.rs:46,74 *)
Definition c_space : char := 32%N.
(** the left corner U+2570 of src/ll_line/display.rs:77 *)
Definition c_left : char := 9584%N.
(** the dash U+2500 of src/ll_line/display.rs:82 *)
Definition c_dash : char := 9472%N.
(** the right corner U+256F of src/ll_line/display.rs:86 *)
Definition c_right : char := 9583%N.

(** src/ll_line/display.rs:80 [end_char_idx - start_char_idx] on [usize] *)
Definition char_len_of (tg : Target) (s e : nat) : res N :=
  if s <=? e then Ok (N.of_nat (e - s))
  else if overflow_checks tg then Panic POverflow
  else Ok (usize_mod tg - N.of_nat (s - e))%N.

(** src/ll_line/display.rs:69-90, one attribute row (with its leading newline) *)
Definition display_row (tg : Target) (starts ends : list nat) (row : LRange * str) : res str :=
  let '((s, e), debug_value) := row in
  start_char_idx <- expect PIndex (nth_error starts s);;
  end_char_idx <- expect PIndex (nth_error ends e);;
  char_len <- char_len_of tg start_char_idx end_char_idx;;
  Ok ([c_newline] ++ repeat c_space start_char_idx ++ [c_left]
      ++ repeat c_dash ((end_char_idx - 1) - (start_char_idx + 1))
      ++ (if (1 <? char_len)%N then [c_right] else []) ++ debug_value).

(** src/ll_line/display.rs:32-94 [Display::fmt], as the string written *)
Definition display (tg : Target) (d : LLLineDisplay) : res str :=
  let '(line, starts, ends) := opening true [] [] [] (ll_tokens (disp_line d)) in
  rows <- mapM (display_row tg starts ends) (include_attrs d);;
  Ok (line ++ concat rows).

End Display.
