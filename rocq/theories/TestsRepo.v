(** The tests of the repository, replayed in the model: each snapshot is the one
    recorded in the repository (leading indentation and last newline removed, as
    insta does).  Evidence that the model behaves as the code does; no theorem
    depends on this file. *)

From Verif Require Import ModelIndent ExLines.

Local Open Scope string_scope.
Local Open Scope list_scope.

(** The characters of a UTF-8 literal. *)
Fixpoint utf8_decode (need : nat) (acc : N) (s : string) : str :=
  match s with
  | EmptyString => []
  | String a s' =>
      let b := N_of_ascii a in
      if (b <? 128)%N then b :: utf8_decode 0 0 s'
      else if (b <? 192)%N then
        let acc' := (acc * 64 + (b - 128))%N in
        match need with
        | S (S n) => utf8_decode (S n) acc' s'
        | _ => acc' :: utf8_decode 0 0 s'
        end
      else if (b <? 224)%N then utf8_decode 1 (b - 192)%N s'
      else if (b <? 240)%N then utf8_decode 2 (b - 224)%N s'
      else utf8_decode 3 (b - 240)%N s'
  end.
Definition u (s : string) : str := utf8_decode 0 0%N s.

(** [text.encode_utf16().count()] *)
Definition utf16_len (s : str) : N := fold_right (fun c n => (if c <? 65536 then n + 1 else n + 2)%N) 0%N s.

(** src/tests.rs:8-16 [test_line], layered-*/src/tests [test_setup] *)
Definition test_line (s : string) : res LLLine :=
  create_line_from_input_tokens tg64 [InText (u s) []] utf16_len.

(** [Debug] of [String] (nothing to escape in the tests). *)
Definition debug_str (s : str) : str := [34%N] ++ s ++ [34%N].

(** src/tests.rs:18-29 [test_resolver], src/tests.rs:31-43 [TestResolver] *)
Definition test_resolver (s : string) (f : LLSelection -> res (list (LLCursorAssignment TStr))) : res str :=
  l <- test_line s;;
  l' <- run 1 l (fun sel => no_retain (f sel));;
  show tg64 l' [existT _ TStr debug_str].

Definition here : den TStr := u "here".
Definition here_all {A} (ms : res (list (LLSelection * A))) : res (list (LLCursorAssignment TStr)) :=
  rmap (fun ms => finish_with ms (fun _ => here)) ms.
Definition here_sels (ms : res (list LLSelection)) : res (list (LLCursorAssignment TStr)) :=
  rmap (map (fun s => finish_with_attr (t := TStr) s here)) ms.
Definition tag (t : TextTag) : matcher unit := x_attr_eq TTextTag TextTag_eqb t.
Definition any_char (cs : string) : matcher N := x_token_has_any TChar N.eqb (u cs).

(** src/tests/ll_selection.rs, the resolver of each test *)
Definition r_find_by sel := here_all (find_by sel (x_attr TChar)).
Definition r_find_first_by sel := here_all (rmap opt_list (find_first_by sel (x_attr TChar))).
Definition r_split_by sel := here_sels (split_by sel (x_attr TChar)).
Definition r_find_by_seq sel := here_all (find_by sel (x_seq2 (x_attr TChar) (tag NATN))).
Definition r_match_seq_forwards sel :=
  here_all (ms <- find_by sel (x_attr TTextTag);;
            flat_mapM (fun '(s, _) => match_forwards s (x_seq2 (tag NATN) (tag WORD))) ms).
Definition r_match_seq_backwards sel :=
  here_all (ms <- find_by sel (x_attr TTextTag);;
            flat_mapM (fun '(s, _) => match_backwards s (x_seq2 (tag NATN) (tag WORD))) ms).
Definition r_one_of sel :=
  here_all (ms <- find_by sel (tag NATN);;
            flat_mapM (fun '(s, _) => rmap opt_list (match_first_forwards s (any_char "(."))) ms).
Definition r_one_of_backwards sel :=
  here_all (ms <- find_by sel (tag NATN);;
            flat_mapM (fun '(s, _) => rmap opt_list (match_first_backwards s (any_char "(."))) ms).
Definition r_one_of_seq sel :=
  here_all (ms <- find_by sel (tag NATN);;
            flat_mapM (fun '(s, _) => rmap opt_list (match_first_forwards s (x_seq2 (any_char "(.") (tag PUNC)))) ms).
Definition r_one_of_seq_backwards sel :=
  here_all (ms <- find_by sel (tag NATN);;
            flat_mapM (fun '(s, _) => rmap opt_list (match_first_backwards s (x_seq2 (any_char "(.") (tag PUNC)))) ms).
Definition r_trim_start sel := here_sels (rmap opt_list (trim_start sel (tag NATN))).
Definition r_trim_end sel := here_sels (rmap opt_list (trim_end sel (tag NATN))).
Definition r_trim sel := here_sels (rmap opt_list (trim sel (tag NATN))).

Ltac replay := vm_compute; reflexivity.

(** src/tests/ll_selection.rs:12 *)
Example test_find_by_1 : test_resolver "0000aa0000.000aa000.0000aa0000" r_find_by = Ok (u "0000  aa  0000  .  000  aa  000  .  0000  aa  0000
                ╰""here""
                                 ╰""here""").
Proof. replay. Qed.

(** src/tests/ll_selection.rs:17 *)
Example test_find_by_2 : test_resolver "0000aa0000...000aa000..0000aa0000" r_find_by = Ok (u "0000  aa  0000  .  .  .  000  aa  000  .  .  0000  aa  0000
                ╰""here""
                   ╰""here""
                      ╰""here""
                                       ╰""here""
                                          ╰""here""").
Proof. replay. Qed.

(** src/tests/ll_selection.rs:25 *)
Example test_find_by_3 : test_resolver ".0000aa0000.000aa000.0000aa0000." r_find_by = Ok (u ".  0000  aa  0000  .  000  aa  000  .  0000  aa  0000  .
╰""here""
                   ╰""here""
                                    ╰""here""
                                                       ╰""here""").
Proof. replay. Qed.

(** src/tests/ll_selection.rs:32 *)
Example test_find_by_4 : test_resolver ".00." r_find_by = Ok (u ".  00  .
╰""here""
       ╰""here""").
Proof. replay. Qed.

(** src/tests/ll_selection.rs:37 *)
Example test_find_by_5 : test_resolver "." r_find_by = Ok (u ".
╰""here""").
Proof. replay. Qed.

(** src/tests/ll_selection.rs:54 *)
Example test_find_first_by_1 : test_resolver "0000aa0000.000aa000.0000aa0000" r_find_first_by = Ok (u "0000  aa  0000  .  000  aa  000  .  0000  aa  0000
                ╰""here""").
Proof. replay. Qed.

(** src/tests/ll_selection.rs:58 *)
Example test_find_first_by_2 : test_resolver "0000aa0000...000aa000..0000aa0000" r_find_first_by = Ok (u "0000  aa  0000  .  .  .  000  aa  000  .  .  0000  aa  0000
                ╰""here""").
Proof. replay. Qed.

(** src/tests/ll_selection.rs:62 *)
Example test_find_first_by_3 : test_resolver ".0000aa0000.000aa000.0000aa0000." r_find_first_by = Ok (u ".  0000  aa  0000  .  000  aa  000  .  0000  aa  0000  .
╰""here""").
Proof. replay. Qed.

(** src/tests/ll_selection.rs:66 *)
Example test_find_first_by_4 : test_resolver ".00." r_find_first_by = Ok (u ".  00  .
╰""here""").
Proof. replay. Qed.

(** src/tests/ll_selection.rs:70 *)
Example test_find_first_by_5 : test_resolver "." r_find_first_by = Ok (u ".
╰""here""").
Proof. replay. Qed.

(** src/tests/ll_selection.rs:89 *)
Example test_split_by_1 : test_resolver "0000aa0000.000aa000.0000aa0000" r_split_by = Ok (u "0000  aa  0000  .  000  aa  000  .  0000  aa  0000
╰────────────╯""here""
                   ╰──────────╯""here""
                                    ╰────────────╯""here""").
Proof. replay. Qed.

(** src/tests/ll_selection.rs:95 *)
Example test_split_by_2 : test_resolver "0000aa0000...000aa000..0000aa0000" r_split_by = Ok (u "0000  aa  0000  .  .  .  000  aa  000  .  .  0000  aa  0000
╰────────────╯""here""
                         ╰──────────╯""here""
                                             ╰────────────╯""here""").
Proof. replay. Qed.

(** src/tests/ll_selection.rs:101 *)
Example test_split_by_3 : test_resolver ".0000aa0000.000aa000.0000aa0000." r_split_by = Ok (u ".  0000  aa  0000  .  000  aa  000  .  0000  aa  0000  .
   ╰────────────╯""here""
                      ╰──────────╯""here""
                                       ╰────────────╯""here""").
Proof. replay. Qed.

(** src/tests/ll_selection.rs:107 *)
Example test_split_by_4 : test_resolver ".00." r_split_by = Ok (u ".  00  .
   ╰╯""here""").
Proof. replay. Qed.

(** src/tests/ll_selection.rs:111 *)
Example test_split_by_5 : test_resolver "." r_split_by = Ok (u ".").
Proof. replay. Qed.

(** src/tests/ll_selection.rs:125 *)
Example test_find_by_seq_1 : test_resolver "0000aa0000.000aa000.0000aa0000" r_find_by_seq = Ok (u "0000  aa  0000  .  000  aa  000  .  0000  aa  0000
                ╰────╯""here""
                                 ╰─────╯""here""").
Proof. replay. Qed.

(** src/tests/ll_selection.rs:130 *)
Example test_find_by_seq_2 : test_resolver "0000aa0000...000aa000..0000aa0000" r_find_by_seq = Ok (u "0000  aa  0000  .  .  .  000  aa  000  .  .  0000  aa  0000
                      ╰────╯""here""
                                          ╰─────╯""here""").
Proof. replay. Qed.

(** src/tests/ll_selection.rs:135 *)
Example test_find_by_seq_3 : test_resolver ".0000aa0000.000aa000.0000aa0000." r_find_by_seq = Ok (u ".  0000  aa  0000  .  000  aa  000  .  0000  aa  0000  .
╰─────╯""here""
                   ╰────╯""here""
                                    ╰─────╯""here""").
Proof. replay. Qed.

(** src/tests/ll_selection.rs:141 *)
Example test_find_by_seq_4 : test_resolver ".00." r_find_by_seq = Ok (u ".  00  .
╰───╯""here""").
Proof. replay. Qed.

(** src/tests/ll_selection.rs:145 *)
Example test_find_by_seq_5 : test_resolver "." r_find_by_seq = Ok (u ".").
Proof. replay. Qed.

(** src/tests/ll_selection.rs:168 *)
Example test_match_seq_forwards_1 : test_resolver "0000aa0000.000aa000.0000aa0000" r_match_seq_forwards = Ok (u "0000  aa  0000  .  000  aa  000  .  0000  aa  0000
                ╰────────╯""here""
                                 ╰─────────╯""here""").
Proof. replay. Qed.

(** src/tests/ll_selection.rs:173 *)
Example test_match_seq_forwards_2 : test_resolver "0000aa0000...000aa000..0000aa0000" r_match_seq_forwards = Ok (u "0000  aa  0000  .  .  .  000  aa  000  .  .  0000  aa  0000
                      ╰────────╯""here""
                                          ╰─────────╯""here""").
Proof. replay. Qed.

(** src/tests/ll_selection.rs:178 *)
Example test_match_seq_forwards_3 : test_resolver ".0000aa0000.000aa000.0000aa0000." r_match_seq_forwards = Ok (u ".  0000  aa  0000  .  000  aa  000  .  0000  aa  0000  .
╰─────────╯""here""
                   ╰────────╯""here""
                                    ╰─────────╯""here""").
Proof. replay. Qed.

(** src/tests/ll_selection.rs:184 *)
Example test_match_seq_forwards_4 : test_resolver ".00." r_match_seq_forwards = Ok (u ".  00  .").
Proof. replay. Qed.

(** src/tests/ll_selection.rs:185 *)
Example test_match_seq_forwards_5 : test_resolver "." r_match_seq_forwards = Ok (u ".").
Proof. replay. Qed.

(** src/tests/ll_selection.rs:208 *)
Example test_match_seq_backwards_1 : test_resolver "0000aa0000.000aa000.0000aa0000" r_match_seq_backwards = Ok (u "0000  aa  0000  .  000  aa  000  .  0000  aa  0000
      ╰─────────╯""here""
                        ╰────────╯""here""").
Proof. replay. Qed.

(** src/tests/ll_selection.rs:213 *)
Example test_match_seq_backwards_2 : test_resolver "0000aa0000...000aa000..0000aa0000" r_match_seq_backwards = Ok (u "0000  aa  0000  .  .  .  000  aa  000  .  .  0000  aa  0000
      ╰─────────╯""here""
                              ╰────────╯""here""").
Proof. replay. Qed.

(** src/tests/ll_selection.rs:218 *)
Example test_match_seq_backwards_3 : test_resolver ".0000aa0000.000aa000.0000aa0000." r_match_seq_backwards = Ok (u ".  0000  aa  0000  .  000  aa  000  .  0000  aa  0000  .
         ╰─────────╯""here""
                           ╰────────╯""here""
                                             ╰─────────╯""here""").
Proof. replay. Qed.

(** src/tests/ll_selection.rs:224 *)
Example test_match_seq_backwards_4 : test_resolver ".00." r_match_seq_backwards = Ok (u ".  00  .").
Proof. replay. Qed.

(** src/tests/ll_selection.rs:225 *)
Example test_match_seq_backwards_5 : test_resolver "." r_match_seq_backwards = Ok (u ".").
Proof. replay. Qed.

(** src/tests/ll_selection.rs:243 *)
Example test_one_of_1 : test_resolver "0000aa0000.000aa000.0000aa0000" r_one_of = Ok (u "0000  aa  0000  .  000  aa  000  .  0000  aa  0000
          ╰─────╯""here""
                            ╰────╯""here""").
Proof. replay. Qed.

(** src/tests/ll_selection.rs:248 *)
Example test_one_of_2 : test_resolver "0000aa0000...000aa000..0000aa0000" r_one_of = Ok (u "0000  aa  0000  .  .  .  000  aa  000  .  .  0000  aa  0000
          ╰─────╯""here""
                                  ╰────╯""here""").
Proof. replay. Qed.

(** src/tests/ll_selection.rs:253 *)
Example test_one_of_3 : test_resolver ".0000aa0000.000aa000.0000aa0000." r_one_of = Ok (u ".  0000  aa  0000  .  000  aa  000  .  0000  aa  0000  .
             ╰─────╯""here""
                               ╰────╯""here""
                                                 ╰─────╯""here""").
Proof. replay. Qed.

(** src/tests/ll_selection.rs:259 *)
Example test_one_of_4 : test_resolver ".00." r_one_of = Ok (u ".  00  .
   ╰───╯""here""").
Proof. replay. Qed.

(** src/tests/ll_selection.rs:263 *)
Example test_one_of_5 : test_resolver "." r_one_of = Ok (u ".").
Proof. replay. Qed.

(** src/tests/ll_selection.rs:281 *)
Example test_one_of_backwards_1 : test_resolver "0000aa0000.000aa000.0000aa0000" r_one_of_backwards = Ok (u "0000  aa  0000  .  000  aa  000  .  0000  aa  0000
                ╰────╯""here""
                                 ╰─────╯""here""").
Proof. replay. Qed.

(** src/tests/ll_selection.rs:286 *)
Example test_one_of_backwards_2 : test_resolver "0000aa0000...000aa000..0000aa0000" r_one_of_backwards = Ok (u "0000  aa  0000  .  .  .  000  aa  000  .  .  0000  aa  0000
                      ╰────╯""here""
                                          ╰─────╯""here""").
Proof. replay. Qed.

(** src/tests/ll_selection.rs:291 *)
Example test_one_of_backwards_3 : test_resolver ".0000aa0000.000aa000.0000aa0000." r_one_of_backwards = Ok (u ".  0000  aa  0000  .  000  aa  000  .  0000  aa  0000  .
╰─────╯""here""
                   ╰────╯""here""
                                    ╰─────╯""here""").
Proof. replay. Qed.

(** src/tests/ll_selection.rs:297 *)
Example test_one_of_backwards_4 : test_resolver ".00." r_one_of_backwards = Ok (u ".  00  .
╰───╯""here""").
Proof. replay. Qed.

(** src/tests/ll_selection.rs:301 *)
Example test_one_of_backwards_5 : test_resolver "." r_one_of_backwards = Ok (u ".").
Proof. replay. Qed.

(** src/tests/ll_selection.rs:327 *)
Example test_one_of_seq_1 : test_resolver "0000aa0000.000aa000.0000aa0000" r_one_of_seq = Ok (u "0000  aa  0000  .  000  aa  000  .  0000  aa  0000").
Proof. replay. Qed.

(** src/tests/ll_selection.rs:328 *)
Example test_one_of_seq_2 : test_resolver "0000aa0000...000aa000..0000aa0000" r_one_of_seq = Ok (u "0000  aa  0000  .  .  .  000  aa  000  .  .  0000  aa  0000
          ╰────────╯""here""
                                  ╰───────╯""here""").
Proof. replay. Qed.

(** src/tests/ll_selection.rs:333 *)
Example test_one_of_seq_3 : test_resolver ".0000aa0000.000aa000.0000aa0000." r_one_of_seq = Ok (u ".  0000  aa  0000  .  000  aa  000  .  0000  aa  0000  .").
Proof. replay. Qed.

(** src/tests/ll_selection.rs:334 *)
Example test_one_of_seq_4 : test_resolver ".00." r_one_of_seq = Ok (u ".  00  .").
Proof. replay. Qed.

(** src/tests/ll_selection.rs:335 *)
Example test_one_of_seq_5 : test_resolver "." r_one_of_seq = Ok (u ".").
Proof. replay. Qed.

(** src/tests/ll_selection.rs:361 *)
Example test_one_of_seq_backwards_1 : test_resolver "0000aa0000.000aa000.0000aa0000" r_one_of_seq_backwards = Ok (u "0000  aa  0000  .  000  aa  000  .  0000  aa  0000").
Proof. replay. Qed.

(** src/tests/ll_selection.rs:362 *)
Example test_one_of_seq_backwards_2 : test_resolver "0000aa0000...000aa000..0000aa0000" r_one_of_seq_backwards = Ok (u "0000  aa  0000  .  .  .  000  aa  000  .  .  0000  aa  0000
                   ╰───────╯""here""
                                       ╰────────╯""here""").
Proof. replay. Qed.

(** src/tests/ll_selection.rs:367 *)
Example test_one_of_seq_backwards_3 : test_resolver ".0000aa0000.000aa000.0000aa0000." r_one_of_seq_backwards = Ok (u ".  0000  aa  0000  .  000  aa  000  .  0000  aa  0000  .").
Proof. replay. Qed.

(** src/tests/ll_selection.rs:368 *)
Example test_one_of_seq_backwards_4 : test_resolver ".00." r_one_of_seq_backwards = Ok (u ".  00  .").
Proof. replay. Qed.

(** src/tests/ll_selection.rs:369 *)
Example test_one_of_seq_backwards_5 : test_resolver "." r_one_of_seq_backwards = Ok (u ".").
Proof. replay. Qed.

(** src/tests/ll_selection.rs:385 *)
Example test_trim_start_1 : test_resolver "0000aa0000.000aa000.0000aa0000" r_trim_start = Ok (u "0000  aa  0000  .  000  aa  000  .  0000  aa  0000
      ╰──────────────────────────────────────────╯""here""").
Proof. replay. Qed.

(** src/tests/ll_selection.rs:389 *)
Example test_trim_start_2 : test_resolver "0000aa0000...000aa000..0000aa0000" r_trim_start = Ok (u "0000  aa  0000  .  .  .  000  aa  000  .  .  0000  aa  0000
      ╰───────────────────────────────────────────────────╯""here""").
Proof. replay. Qed.

(** src/tests/ll_selection.rs:393 *)
Example test_trim_start_3 : test_resolver ".0000aa0000.000aa000.0000aa0000." r_trim_start = Ok (u ".  0000  aa  0000  .  000  aa  000  .  0000  aa  0000  .
╰──────────────────────────────────────────────────────╯""here""").
Proof. replay. Qed.

(** src/tests/ll_selection.rs:397 *)
Example test_trim_start_4 : test_resolver ".00." r_trim_start = Ok (u ".  00  .
╰──────╯""here""").
Proof. replay. Qed.

(** src/tests/ll_selection.rs:401 *)
Example test_trim_start_5 : test_resolver "." r_trim_start = Ok (u ".
╰""here""").
Proof. replay. Qed.

(** src/tests/ll_selection.rs:420 *)
Example test_trim_end_1 : test_resolver "0000aa0000.000aa000.0000aa0000" r_trim_end = Ok (u "0000  aa  0000  .  000  aa  000  .  0000  aa  0000
╰──────────────────────────────────────────╯""here""").
Proof. replay. Qed.

(** src/tests/ll_selection.rs:424 *)
Example test_trim_end_2 : test_resolver "0000aa0000...000aa000..0000aa0000" r_trim_end = Ok (u "0000  aa  0000  .  .  .  000  aa  000  .  .  0000  aa  0000
╰───────────────────────────────────────────────────╯""here""").
Proof. replay. Qed.

(** src/tests/ll_selection.rs:428 *)
Example test_trim_end_3 : test_resolver ".0000aa0000.000aa000.0000aa0000." r_trim_end = Ok (u ".  0000  aa  0000  .  000  aa  000  .  0000  aa  0000  .
╰──────────────────────────────────────────────────────╯""here""").
Proof. replay. Qed.

(** src/tests/ll_selection.rs:432 *)
Example test_trim_end_4 : test_resolver ".00." r_trim_end = Ok (u ".  00  .
╰──────╯""here""").
Proof. replay. Qed.

(** src/tests/ll_selection.rs:436 *)
Example test_trim_end_5 : test_resolver "." r_trim_end = Ok (u ".
╰""here""").
Proof. replay. Qed.

(** src/tests/ll_selection.rs:455 *)
Example test_trim_1 : test_resolver "0000aa0000.000aa000.0000aa0000" r_trim = Ok (u "0000  aa  0000  .  000  aa  000  .  0000  aa  0000
      ╰────────────────────────────────────╯""here""").
Proof. replay. Qed.

(** src/tests/ll_selection.rs:459 *)
Example test_trim_2 : test_resolver "0000aa0000...000aa000..0000aa0000" r_trim = Ok (u "0000  aa  0000  .  .  .  000  aa  000  .  .  0000  aa  0000
      ╰─────────────────────────────────────────────╯""here""").
Proof. replay. Qed.

(** src/tests/ll_selection.rs:463 *)
Example test_trim_3 : test_resolver ".0000aa0000.000aa000.0000aa0000." r_trim = Ok (u ".  0000  aa  0000  .  000  aa  000  .  0000  aa  0000  .
╰──────────────────────────────────────────────────────╯""here""").
Proof. replay. Qed.

(** src/tests/ll_selection.rs:467 *)
Example test_trim_4 : test_resolver ".00." r_trim = Ok (u ".  00  .
╰──────╯""here""").
Proof. replay. Qed.

(** src/tests/ll_selection.rs:471 *)
Example test_trim_5 : test_resolver "." r_trim = Ok (u ".
╰""here""").
Proof. replay. Qed.

(** src/tests/tokenizing.rs:7-132 *)
Example test_tokenizing : rmap ll_tokens (test_line ". 1 000.23. € .5") = Ok [

  mkLLToken 0 0 1 (LText (u ".") PUNC);
  mkLLToken 1 1 2 (LText (u " ") SPACE);
  mkLLToken 2 2 3 (LText (u "1") NATN);
  mkLLToken 3 3 4 (LText (u " ") SPACE);
  mkLLToken 4 4 7 (LText (u "000") NATN);
  mkLLToken 5 7 8 (LText (u ".") PUNC);
  mkLLToken 6 8 10 (LText (u "23") NATN);
  mkLLToken 7 10 11 (LText (u ".") PUNC);
  mkLLToken 8 11 12 (LText (u " ") SPACE);
  mkLLToken 9 12 13 (LText (u "€") SYMB);
  mkLLToken 10 13 14 (LText (u " ") SPACE);
  mkLLToken 11 14 15 (LText (u ".") PUNC);
  mkLLToken 12 15 16 (LText (u "5") NATN)].
Proof. replay. Qed.

(** The snapshot itself: all characters here are printable. *)
Definition all_printable : PrintTable := mkPrintTable (fun _ => true) (fun _ => false) true.
Definition split_input (s : string) : res str :=
  rmap (fun l => pretty_slice (pretty_lltoken all_printable) (ll_tokens l)) (test_line s).
Example test_tokenizing_snapshot : split_input ". 1 000.23. € .5" = Ok (u "[
    LLToken {
        token_idx: 0,
        pos_starts_at: 0,
        pos_ends_at: 1,
        token: Text(
            ""."",
            PUNC,
        ),
    },
    LLToken {
        token_idx: 1,
        pos_starts_at: 1,
        pos_ends_at: 2,
        token: Text(
            "" "",
            SPACE,
        ),
    },
    LLToken {
        token_idx: 2,
        pos_starts_at: 2,
        pos_ends_at: 3,
        token: Text(
            ""1"",
            NATN,
        ),
    },
    LLToken {
        token_idx: 3,
        pos_starts_at: 3,
        pos_ends_at: 4,
        token: Text(
            "" "",
            SPACE,
        ),
    },
    LLToken {
        token_idx: 4,
        pos_starts_at: 4,
        pos_ends_at: 7,
        token: Text(
            ""000"",
            NATN,
        ),
    },
    LLToken {
        token_idx: 5,
        pos_starts_at: 7,
        pos_ends_at: 8,
        token: Text(
            ""."",
            PUNC,
        ),
    },
    LLToken {
        token_idx: 6,
        pos_starts_at: 8,
        pos_ends_at: 10,
        token: Text(
            ""23"",
            NATN,
        ),
    },
    LLToken {
        token_idx: 7,
        pos_starts_at: 10,
        pos_ends_at: 11,
        token: Text(
            ""."",
            PUNC,
        ),
    },
    LLToken {
        token_idx: 8,
        pos_starts_at: 11,
        pos_ends_at: 12,
        token: Text(
            "" "",
            SPACE,
        ),
    },
    LLToken {
        token_idx: 9,
        pos_starts_at: 12,
        pos_ends_at: 13,
        token: Text(
            ""€"",
            SYMB,
        ),
    },
    LLToken {
        token_idx: 10,
        pos_starts_at: 13,
        pos_ends_at: 14,
        token: Text(
            "" "",
            SPACE,
        ),
    },
    LLToken {
        token_idx: 11,
        pos_starts_at: 14,
        pos_ends_at: 15,
        token: Text(
            ""."",
            PUNC,
        ),
    },
    LLToken {
        token_idx: 12,
        pos_starts_at: 15,
        pos_ends_at: 16,
        token: Text(
            ""5"",
            NATN,
        ),
    },
]").
Proof. replay. Qed.

(** ** Debug of the attribute types *)
Definition debug_amount (d : den TAmount) : str := dbg_amount d.
Definition debug_keyword (k : den TKeyword) : str := dbg_keyword k.
Definition debug_clause (c : den TClause) : str := dbg_clause c.
(** wiktionary's [Tag], numbered here *)
Definition debug_tag (n : den TPos) : str :=
  u match n with
    | 0 => "Noun" | 1 => "Verb" | 2 => "Conjunction" | 3 => "Pronoun" | 4 => "Determiner"
    | 5 => "Adjective" | 6 => "Adverb" | 7 => "Preposition" | _ => "Interjection"
    end%N.

(** ** layered-amount/src/tests/amounts.rs *)
Definition test_amount (s : string) (r : AmountResolver) : res str :=
  l <- test_line s;;
  l' <- run 1 l (amount_go parse_decimal r);;
  show tg64 l' [existT _ TAmount debug_amount].

(** layered-amount/src/tests/amounts.rs:24 *)
Example test_amount_simple : test_amount "So I says to him, ""You owes me 50 bucks, prepare y'self to die.""" (mkAmountResolver (u " '") 44%N)
  = Ok (u "So     I     says     to     him  ,     ""  You     owes     me     50     bucks  ,     prepare     y'self     to     die  .  ""
                                                                   ╰╯Amount(50)").
Proof. replay. Qed.

(** layered-amount/src/tests/amounts.rs:43 *)
Example test_amount_english : test_amount "First, Paul owed me $1.25, then he owed me $1.35, then he owed me $45,000.24!" (mkAmountResolver (u ",_") 46%N)
  = Ok (u "First  ,     Paul     owed     me     $  1  .  25  ,     then     he     owed     me     $  1  .  35  ,     then     he     owed     me     $  45  ,  000  .  24  !
                                         ╰──────╯Amount(1.25)
                                                                                            ╰──────╯Amount(1.35)
                                                                                                                                               ╰───────────────╯Amount(45000.24)").
Proof. replay. Qed.

(** layered-amount/src/tests/amounts.rs:64 *)
Example test_amounts_in_a_list : test_amount "1, 2, 3, 4. 500,000, 600,000, 1 million." (mkAmountResolver (u ",_") 46%N)
  = Ok (u "1  ,     2  ,     3  ,     4  .     500  ,  000  ,     600  ,  000  ,     1     million  .
╰Amount(1)
         ╰Amount(2)
                  ╰Amount(3)
                           ╰Amount(4)
                                    ╰─────────╯Amount(500000)
                                                       ╰─────────╯Amount(600000)
                                                                          ╰Amount(1)").
Proof. replay. Qed.

(** ** layered-clauses/src/tests/clauses.rs *)
Definition test_clause (kw : ClauseKeywordResolver) (s : string) : res str :=
  l <- test_line s;;
  l <- run 1 l (clause_keyword_go kw);;
  l <- run 2 l clause_go;;
  show tg64 l [existT _ TKeyword debug_keyword; existT _ TClause debug_clause].
Definition english_keywords := mkClauseKeywordResolver [u "if"; u "when"] [u "and"] [u "then"].
Definition french_keywords := mkClauseKeywordResolver [u "si"] [u "et"] [u "alors"].

(** A dictionary: the words of the test only. *)
Definition dict_of (d : list (string * list N)) : str -> option (list N) :=
  fun w => option_map snd (List.find (fun e => str_eqb (u (fst e)) w) d).
Definition test_tags (d : list (string * list N)) (s : string) : res str :=
  l <- test_line s;;
  l <- run 1 l (pos_go (dict_of d) 0%N);;
  show tg64 l [existT _ TPos debug_tag].
Definition test_tags_clause (d : list (string * list N)) (kw : ClauseKeywordResolver) (s : string) : res str :=
  l <- test_line s;;
  l <- run 0 l (pos_go (dict_of d) 0%N);;
  l <- run 1 l (clause_keyword_go kw);;
  l <- run 2 l clause_go;;
  show tg64 l [existT _ TKeyword debug_keyword; existT _ TClause debug_clause; existT _ TPos debug_tag].

(** layered-clauses/src/tests/clauses.rs:26 *)
Example test_clauses : test_clause english_keywords "When it rains, then it pours."
  = Ok (u "When     it     rains  ,     then     it     pours  .
╰──╯ConditionStart
                             ╰──╯Then
         ╰──────────╯Condition
                                      ╰──────────╯TrailingEffect").
Proof. replay. Qed.

(** layered-clauses/src/tests/clauses.rs:49 *)
Example test_short_clauses : test_clause english_keywords "When it rains, run!"
  = Ok (u "When     it     rains  ,     run  !
╰──╯ConditionStart
         ╰──────────╯Condition
                             ╰─╯TrailingEffect").
Proof. replay. Qed.

Definition clause_dict : list (string * list N) := [
  ("if", [2; 0]);
  ("it", [5; 4; 0; 3]);
  ("is", [0; 1]);
  ("raining", [0; 1]);
  ("open", [5; 0; 1]);
  ("your", [4; 3]);
  ("umbrella", [0; 1])]%N.

(** layered-clauses/src/tests/clauses.rs:73 *)
Example test_clauses_comma : test_tags_clause clause_dict english_keywords "If it is raining, open your umbrella."
  = Ok (u "If     it     is     raining  ,     open     your     umbrella  .
╰╯ConditionStart
       ╰───────────────────╯Condition
                                    ╰────────────────────────╯TrailingEffect
╰╯Noun
╰╯Conjunction
       ╰╯Pronoun
       ╰╯Noun
       ╰╯Determiner
       ╰╯Adjective
              ╰╯Verb
              ╰╯Noun
                     ╰─────╯Verb
                     ╰─────╯Noun
                                    ╰──╯Verb
                                    ╰──╯Noun
                                    ╰──╯Adjective
                                             ╰──╯Pronoun
                                             ╰──╯Determiner
                                                      ╰──────╯Verb
                                                      ╰──────╯Noun").
Proof. replay. Qed.

(** layered-clauses/src/tests/clauses.rs:108 *)
Example test_tired : test_clause french_keywords "Si tu es fatigué, va te coucher."
  = Ok (u "Si     tu     es     fatigué  ,     va     te     coucher  .
╰╯ConditionStart
       ╰───────────────────╯Condition
                                    ╰───────────────────╯TrailingEffect").
Proof. replay. Qed.

(** layered-clauses/src/tests/clauses.rs:126 *)
Example test_tired_rev : test_clause french_keywords "Va te coucher si tu es fatigué."
  = Ok (u "Va     te     coucher     si     tu     es     fatigué  .
                          ╰╯ConditionStart
╰───────────────────╯LeadingEffect
                                 ╰───────────────────╯Condition").
Proof. replay. Qed.

(** layered-clauses/src/tests/clauses.rs:149 *)
Example test_rain : test_clause english_keywords "If it is raining then open the umbrella and close the garage and the door."
  = Ok (u "If     it     is     raining     then     open     the     umbrella     and     close     the     garage     and     the     door  .
╰╯ConditionStart
                                 ╰──╯Then
                                                                        ╰─╯And
                                                                                                             ╰─╯And
       ╰───────────────────╯Condition
                                          ╰───────────────────────╯TrailingEffect
                                                                                ╰──────────────────────╯TrailingEffect
                                                                                                                     ╰──────────╯TrailingEffect").
Proof. replay. Qed.

(** layered-clauses/src/tests/clauses.rs:178 *)
Example test_rain_rev : test_clause english_keywords "Open the umbrella and close the garage and the door if it is raining."
  = Ok (u "Open     the     umbrella     and     close     the     garage     and     the     door     if     it     is     raining  .
                              ╰─╯And
                                                                   ╰─╯And
                                                                                            ╰╯ConditionStart
╰───────────────────────╯LeadingEffect
                                      ╰──────────────────────╯LeadingEffect
                                                                           ╰──────────╯LeadingEffect
                                                                                                   ╰───────────────────╯Condition").
Proof. replay. Qed.

(** layered-clauses/src/tests/clauses.rs:205 *)
Example test_extra_rain : test_clause english_keywords "Open the umbrella if it is raining and not too windy."
  = Ok (u "Open     the     umbrella     if     it     is     raining     and     not     too     windy  .
                              ╰╯ConditionStart
                                                               ╰─╯And
╰───────────────────────╯LeadingEffect
                                     ╰───────────────────╯Condition
                                                                       ╰───────────────────╯TrailingEffect").
Proof. replay. Qed.

(** layered-clauses/src/tests/clauses.rs:230 *)
Example test_no_keyword : test_clause english_keywords "Open the umbrella."
  = Ok (u "Open     the     umbrella  .
╰───────────────────────╯Independent").
Proof. replay. Qed.

(** ** examples/examples/position_of_speech.rs *)
Definition example_dict : list (string * list N) := [
  ("don't", [8; 0; 1]);
  ("step", [0; 1]);
  ("on", [5; 6; 0; 7; 1]);
  ("the", [6; 7]);
  ("broken", [5; 1]);
  ("glass", [0; 1]);
  ("and", [2; 0; 1]);
  ("in", [5; 6; 0; 7; 1]);
  ("paris", [0])]%N.

(** examples/examples/position_of_speech.rs:18; tablesaw is not in the dictionary here *)
Example test_position_of_speech : test_tags example_dict "Don't step on the broken glass and the tablesaw in Paris."
  = Ok (u "Don't     step     on     the     broken     glass     and     the     tablesaw     in     Paris  .
╰───╯Verb
╰───╯Noun
╰───╯Interjection
          ╰──╯Verb
          ╰──╯Noun
                   ╰╯Verb
                   ╰╯Preposition
                   ╰╯Noun
                   ╰╯Adverb
                   ╰╯Adjective
                          ╰─╯Preposition
                          ╰─╯Adverb
                                  ╰────╯Verb
                                  ╰────╯Adjective
                                             ╰───╯Verb
                                             ╰───╯Noun
                                                       ╰─╯Verb
                                                       ╰─╯Noun
                                                       ╰─╯Conjunction
                                                               ╰─╯Preposition
                                                               ╰─╯Adverb
                                                                       ╰──────╯Noun
                                                                                    ╰╯Verb
                                                                                    ╰╯Preposition
                                                                                    ╰╯Noun
                                                                                    ╰╯Adverb
                                                                                    ╰╯Adjective
                                                                                           ╰───╯Noun").
Proof. replay. Qed.

(** ** src/resolvers/text_match.rs *)

(** src/resolvers/text_match.rs:102; [Service] is [TNum] here *)
Definition debug_service (n : den TNum) : str :=
  u match n with 0 => "Slack" | 1 => "Algolia" | 2 => "Magic" | _ => "Wolfram" end%N.
Example test_text_match :
  (l <- create_line_from_input_tokens tg64
          [InText (u "when Slack hears a message in #general") []; InText (u "Algolia search query: message, table") []] utf16_len;;
   l <- run 1 l (text_match_go (text_match_new_ci (t := TNum)
          [(u "Slack", [0%N]); (u "Algolia", [1%N]); (u "Magic", [2%N]); (u "Wolfram", [3%N])]));;
   show tg64 l [existT _ TNum debug_service])
  = Ok (u "when     Slack     hears     a     message     in     #  general  Algolia     search     query  :     message  ,     table
         ╰───╯Slack
                                                                  ╰─────╯Algolia").
Proof. replay. Qed.

(** ** src/tests/currency_amount.rs *)

(** src/tests/currency_amount.rs:6-10; [CurrencySymbol] is [TNum] here: the character *)
Definition debug_symbol (c : den TNum) : str := u (if (c =? 36)%N then "USDDollars" else "Euro").
(** src/tests/currency_amount.rs:14-29 [CurrencySymbolResolver] *)
Definition symbol_go : Resolver TNum := fun sel =>
  no_retain (ms <- find_by sel (any_char "€$");; Ok (finish_with (t := TNum) ms (fun c => c))).
(** src/tests/currency_amount.rs:110-127; [CurrencyAmount] is [TStr] here: its [Debug] *)
Definition debug_currency_amount (s : den TStr) : str := s.
Definition currency_amount_go : Resolver TStr := fun sel =>
  no_retain (
    ms <- find_by_forwards_and_backwards sel (x_seq2 (x_attr TNum) (x_attr TAmount));;
    Ok (finish_with (t := TStr) ms (fun '(c, a) => u "CurrencyAmount(" ++ debug_symbol c ++ u ", " ++ debug_amount a ++ u ")"))).
Definition test_currency (r : AmountResolver) (s : string) : res str :=
  l <- test_line s;;
  l <- run 1 l symbol_go;;
  l <- run 2 l (amount_go parse_decimal r);;   (* src/tests/currency_amount.rs:34-108 is layered-amount's code *)
  l <- run 3 l currency_amount_go;;
  show tg64 l [existT _ TNum debug_symbol; existT _ TAmount debug_amount; existT _ TStr debug_currency_amount].

(** src/tests/currency_amount.rs:142 *)
Example test_it_works_usd : test_currency (mkAmountResolver [44%N] 46%N) "$1,000.25"
  = Ok (u "$  1  ,  000  .  25
╰USDDollars
   ╰──────────────╯Amount(1000.25)
╰─────────────────╯CurrencyAmount(USDDollars, Amount(1000.25))").
Proof. replay. Qed.

(** src/tests/currency_amount.rs:164 *)
Example test_it_works_euro : test_currency (mkAmountResolver [32%N] 44%N) ". 1 000,25€"
  = Ok (u ".     1     000  ,  25  €
                        ╰Euro
      ╰──────────────╯Amount(1000.25)
      ╰─────────────────╯CurrencyAmount(Euro, Amount(1000.25))").
Proof. replay. Qed.

(** src/tests/currency_amount.rs:182 *)
Example test_trailing_delimiter : test_amount "100,." (mkAmountResolver [44%N] 46%N)
  = Ok (u "100  ,  .
╰─╯Amount(100)").
Proof. replay. Qed.

(** ** src/type_bucket.rs:277-312 [test_type_map]; [i32] is [TNum], [bool] is [TTextTag], [MyType] is [TStr] *)
Example test_type_map :
  (b <- tb_insert tb_new TNum 5%N;;
   b <- tb_insert b TStr [10%N];;
   n <- tb_get b TNum;;
   f <- tb_get b TTextTag;;
   m <- tb_get b TStr;;
   b <- tb_insert b TStr [20%N];;
   m2 <- tb_get b TStr;;
   Ok (n, f, m, m2)) = Ok ([5%N], [], [[10%N]], [[10%N]; [20%N]]).
Proof. replay. Qed.

(** ** src/create_tokens.rs:206-282; [MarkKind] is [TNum] and [Link] is [TStr] here *)
Definition debug_mark (n : den TNum) : str := u match n with 0 => "Italic" | _ => "Bold" end%N.
Definition debug_link (s : den TStr) : str := u "Link { href: " ++ debug_str s ++ u " }".

(** src/create_tokens.rs:249 *)
Example test_create_tokens :
  (l <- create_line_from_input_tokens tg64
     [InText (u "Hello, ") []; InText (u "World") [any_of TNum 1%N; any_of TNum 0%N]; InText (u "!") []] str_len;;
   show tg64 l [existT _ TNum debug_mark])
  = Ok (u "Hello  ,     World  !
             ╰───╯Italic
             ╰───╯Bold").
Proof. replay. Qed.

(** src/create_tokens.rs:276 *)
Example test_create_tokens_email :
  (l <- create_line_from_input_tokens tg64
     [InText (u "name@example.com") [any_of TNum 0%N; any_of TStr (u "mailto:name@example.com")]] str_len;;
   show tg64 l [existT _ TNum debug_mark; existT _ TStr debug_link])
  = Ok (u "name  @  example.com
╰──────────────────╯Italic
╰──────────────────╯Link { href: ""mailto:name@example.com"" }").
Proof. replay. Qed.

(** ** src/create_tokens/get_word_tag.rs:54-98 *)

Example test_is_word :
  map (fun s => is_word (u s)) ["don't"; "A"; "Story"; "cameras'"; ""; "😀"; "🦶🏽"; "$"; "'"; "%'"; "$12"; "'tis"; ""]
  = [true; true; true; true; false; false; false; false; false; false; false; false; false].
Proof. replay. Qed.

Example test_is_spaces :
  map (fun s => is_spaces (u s)) [" "; "   "; " 	"; "		"; "don't"; "A"; "Story"; "cameras'"; "😀"; "🦶🏽"; "$"; "'"; "%'"; "$12"; "'tis"]
  = [true; true; true; true; false; false; false; false; false; false; false; false; false; false; false].
Proof. replay. Qed.
