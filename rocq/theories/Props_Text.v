(** * Properties C06-C13: arena, string table, positions, messages, lexer *)
From Verif Require Import Base Values Token Arena ArenaSpec ArenaProofs Strings StringsProofs Pos PosProofs
  ErrFmt ErrFmtSpec ErrFmtProofs Lexer LexerC LexerSpec LexerTheory LexerWords.
Local Open Scope Z_scope.

(** ** C06  Any history of requests from an empty arena *)
Theorem arena_blocks : forall rs, Forall good_request rs ->
  exists a xs, arena_run init_arena rs = Ok (a, xs) /\ length xs = length rs /\
    (forall i size align x, answered rs xs i size align x ->
       in_page a x size /\ snd x mod align = 0) /\
    (forall i j size align x size' align' y, i <> j ->
       answered rs xs i size align x -> answered rs xs j size' align' y ->
       disjoint x size y size') /\
    NoDup (destroy_arena a) /\ (forall p, In p (destroy_arena a) <-> (p < a_next a)%nat).
Proof. exact arena_L. Qed.
Print Assumptions arena_blocks.

Theorem arena_pages_stay : forall a size align a' x, arena_alloc a size align = Ok (a', x) ->
  forall p, In p (a_pages a) -> exists p', In p' (a_pages a') /\ p_id p' = p_id p /\ p_cap p' = p_cap p.
Proof. exact alloc_keeps. Qed.
Print Assumptions arena_pages_stay.

Example arena_history :
  Forall good_request [(24, 8); (5, 1); (4095, 16); (5000, 8); (1, 4)] /\
  exists a, arena_run init_arena [(24, 8); (5, 1); (4095, 16); (5000, 8); (1, 4)] =
    Ok (a, [(0%nat, 0); (0%nat, 24); (1%nat, 0); (2%nat, 0); (3%nat, 0)]).
Proof.
  split.
  - repeat constructor; cbn; try lia; [exists 3|exists 0|exists 4|exists 3|exists 2]; lia.
  - vm_compute. eexists; reflexivity.
Qed.

(** Rounding up is wrong for an even alignment that is no power of two. *)
Theorem arena_align6_refuted : exists a x, arena_run init_arena [(2, 1); (1, 6)] = Ok (a, x) /\
  exists y, nth_error x 1 = Some y /\ snd y mod 6 <> 0.
Proof. eexists _, _. split; [vm_compute; reflexivity|]. eexists. split; [reflexivity|]. cbn. discriminate. Qed.
Print Assumptions arena_align6_refuted.

(** ** C07 *)
Theorem strings_interned : forall ss,
  match register_all [] ss with
  | Ok (t, is) =>
      length is = length ss /\ (length t <= 1024)%nat /\
      (forall n s i, nth_error ss n = Some s -> nth_error is n = Some i ->
         nth_error t i = Some (until_nul s)) /\
      (forall n m s s' i j, nth_error ss n = Some s -> nth_error ss m = Some s' ->
         nth_error is n = Some i -> nth_error is m = Some j ->
         (i = j <-> until_nul s = until_nul s'))
  | Abort => exists l, NoDup l /\ (1024 < length l)%nat /\
               forall x, In x l -> exists s, In s ss /\ x = until_nul s
  | _ => False
  end.
Proof. exact interning_L. Qed.
Print Assumptions strings_interned.

Theorem string_indices_stable : forall ss ss' t is t' is',
  register_all [] ss = Ok (t, is) -> register_all t ss' = Ok (t', is') ->
  forall i s, nth_error t i = Some s -> nth_error t' i = Some s.
Proof. exact interning_stable_L. Qed.
Print Assumptions string_indices_stable.

Example strings_history :
  register_all [] [text_of "a"; text_of "b"; text_of "a"; text_of ""] =
    Ok ([text_of "a"; text_of "b"; text_of ""], [0; 1; 0; 2]%nat).
Proof. reflexivity. Qed.

(** ** C08 *)
Theorem line_of_offset : forall src pos, 0 <= pos ->
  translate_pos src pos =
  if pos <=? Z.of_nat (length src) then Ok (1 + newlines (firstn (Z.to_nat pos) src))%nat else Abort.
Proof. exact translate_pos_L. Qed.
Print Assumptions line_of_offset.

Theorem line_and_column : forall src pos, (pos < length src)%nat ->
  exists col, friendly_pos src (length src) pos = Ok (newlines (firstn pos src), col) /\
    is_column src pos col.
Proof. exact friendly_pos_L. Qed.
Print Assumptions line_and_column.

Theorem column_is_unique : forall src pos c c', (pos <= length src)%nat ->
  is_column src pos c -> is_column src pos c' -> c = c'.
Proof. exact column_unique. Qed.
Print Assumptions column_is_unique.

Example offset_of_second_line :
  translate_pos (text_of "ab
cd
ef") 4 = Ok 2%nat /\ friendly_pos (text_of "ab
cd
ef") 8 4 = Ok (1, 1)%nat.
Proof. split; reflexivity. Qed.

(** ** C09 *)
Theorem error_message : forall buf file src pos msg,
  0 <= pos <= Z.of_nat (length src) ->
  format_error buf file (Some src) pos msg =
  Ok (printed buf (error_text file src msg (1 + newlines (firstn (Z.to_nat pos) src))%nat)).
Proof. exact format_error_L. Qed.
Print Assumptions error_message.

Theorem error_message_without_source : forall buf file pos msg,
  format_error buf file None pos msg = Ok (printed buf (error_text_nosrc msg)).
Proof. exact format_error_nosrc_L. Qed.
Print Assumptions error_message_without_source.

Theorem error_message_lines : forall src, concat (lines src) = src.
Proof. exact lines_concat. Qed.
Print Assumptions error_message_lines.

Theorem error_message_beyond_source_refuted : forall buf file src pos msg,
  Z.of_nat (length src) < pos -> format_error buf file (Some src) pos msg = Abort.
Proof. exact format_error_beyond_L. Qed.
Print Assumptions error_message_beyond_source_refuted.

Example error_message_truncated :
  format_error (repeat "#"%char 12) (text_of "f") (Some (text_of "x
y")) 2 (text_of "bad") =
  Ok (text_of "
1	x
2 ->	y" ++ ["000"%char]) .
Proof. vm_compute. reflexivity. Qed.

(** ** C10  Reading tokens: [ask src fuel n] fetches [n] tokens *)
Theorem lexer_reads_in_bounds : forall src fuel n,
  ask src fuel n c_init <> UB /\ ask src fuel n c_init <> Abort.
Proof. exact lexer_safe_L. Qed.
Print Assumptions lexer_reads_in_bounds.

Theorem lexer_progress : forall src fuel n ts c k c',
  ask src fuel n c_init = Ok (ts, c) -> c_get_token src fuel c = Ok (k, c') ->
  0 <= c_pos c' <= Z.of_nat (length src) /\ consumed c <= consumed c' /\
  (proper k -> consumed c < consumed c').
Proof. exact lexer_progress_L. Qed.
Print Assumptions lexer_progress.

Theorem lexer_total : forall src, exists n, (n <= length src)%nat /\
  ((exists ts t, Forall (fun t => proper (tk t)) ts /\ (tk t = TEOF \/ tk t = LEXER_ERROR) /\ length ts = n /\
      forall fuel, (length src + 1 < fuel)%nat -> exists c, ask src fuel (S n) c_init = Ok (ts ++ [t], c)) \/
   ((exists a q, src = a ++ ch_dquote :: q /\ ~ closed q) /\ forall fuel, ask src fuel (S n) c_init = Fuel)).
Proof. exact lexer_total_L. Qed.
Print Assumptions lexer_total.

Example lexer_runs : exists ts c,
  ask (text_of "f(x) // c
 ""a\""b""") 30 6 c_init = Ok (ts, c) /\
  map tk ts = [IDENT; OPENPAREN; IDENT; CLOSEPAREN; STRING; TEOF] /\ c_line c = 2.
Proof. eexists _, _. split; [vm_compute; reflexivity|]. split; reflexivity. Qed.

(** An unclosed string literal makes the lexer loop for ever. *)
Theorem lexer_unclosed_string_refuted : forall fuel,
  ask (text_of """abc") fuel 1 c_init = Fuel.
Proof.
  intros fuel. destruct (lexer_reads_in_bounds (text_of """abc") fuel 1) as [H1 H2].
  destruct (ask (text_of """abc") fuel 1 c_init) as [[ts c]| | |] eqn:E; try congruence.
  exfalso. destruct (ask_any _ _ _ _ _ E) as (p & l & f & E' & _). vm_compute in E'. discriminate E'.
Qed.
Print Assumptions lexer_unclosed_string_refuted.

(** An unexpected character is reported again and again without moving on. *)
Theorem lexer_error_stuck_refuted : forall n, exists ts c,
  ask (text_of "@x") 9 (S n) c_init = Ok (ts, c) /\ map tk ts = repeat LEXER_ERROR (S n) /\ consumed c = 0.
Proof.
  assert (G : forall n, exists ts, ask (text_of "@x") 9 n (mkC 1 (Some "@"%char) 1 None false 0 0) =
     Ok (ts, mkC 1 (Some "@"%char) 1 None false 0 0) /\ map tk ts = repeat LEXER_ERROR n).
  { induction n as [|n (ts & E & K)]; [eexists; split; reflexivity|].
    eexists. cbn [ask]. change (c_get_token (text_of "@x") 9 _) with (@Ok (tokkind * clex) (LEXER_ERROR, mkC 1 (Some "@"%char) 1 None false 0 0)).
    cbn [obind]. rewrite E. cbn [obind]. split; [reflexivity|]. cbn [map repeat]. rewrite K. reflexivity. }
  intros n. destruct (G n) as (ts & E & K).
  eexists _, _. cbn [ask]. change (c_get_token (text_of "@x") 9 c_init) with (@Ok (tokkind * clex) (LEXER_ERROR, mkC 1 (Some "@"%char) 1 None false 0 0)).
  cbn [obind]. rewrite E. cbn [obind]. split; [reflexivity|]. cbn [map repeat]. rewrite K. split; reflexivity.
Qed.
Print Assumptions lexer_error_stuck_refuted.

(** ** C11 *)
Theorem trivia_insertion : forall a b w fuel n ts c,
  gap w -> ask (a ++ b) fuel n c_init = Ok (ts, c) -> Forall (fun t => proper (tk t)) ts ->
  (n = O /\ a = []) \/ ((1 <= n)%nat /\ consumed c = Z.of_nat (length a)) ->
  (w = [] \/ begins_blank w \/ last (map tk ts) TEOF <> SLASH) ->
  forall m fuel', (length (a ++ w ++ b) + 1 < fuel')%nat ->
  match ask (a ++ b) fuel' (n + m) c_init, ask (a ++ w ++ b) fuel' (n + m) c_init with
  | Ok (ts1, _), Ok (ts2, _) =>
      map content ts1 = map content ts2 /\
      map tk_line (firstn n ts1) = map tk_line (firstn n ts2) /\
      map (fun t => tk_line t + Z.of_nat (newlines w)) (skipn n ts1) = map tk_line (skipn n ts2)
  | Fuel, Fuel => True
  | _, _ => False
  end.
Proof. exact trivia_insertion_L. Qed.
Print Assumptions trivia_insertion.

Example trivia_insertion_case :
  gap (text_of " // hello
") /\ begins_blank (text_of " // hello
") /\
  exists ts c, ask (text_of "x/" ++ text_of "y;") 20 2 c_init = Ok (ts, c) /\
    Forall (fun t => proper (tk t)) ts /\ consumed c = 2 /\ map tk ts = [IDENT; SLASH].
Proof.
  split; [|split].
  - apply gap_blank; [left; reflexivity|].
    apply (gap_comment (text_of " hello") []); [|constructor].
    cbn. intros H. repeat (destruct H as [H|H]; [discriminate|]). destruct H.
  - eexists _, _. split; [reflexivity|]. left. reflexivity.
  - eexists _, _. split; [vm_compute; reflexivity|]. repeat split; repeat constructor; discriminate.
Qed.

(** Without the blank, a comment after a division sign swallows it. *)
Theorem trivia_after_slash_refuted : exists a b w ts c ts1 c1 ts2 c2,
  gap w /\ ask (a ++ b) 20 2 c_init = Ok (ts, c) /\ consumed c = Z.of_nat (length a) /\
  ask (a ++ b) 20 3 c_init = Ok (ts1, c1) /\ ask (a ++ w ++ b) 20 3 c_init = Ok (ts2, c2) /\
  map tk ts1 <> map tk ts2.
Proof.
  exists (text_of "x/"), (text_of "y"), (text_of "//
"). eexists _, _, _, _, _, _.
  split; [apply (gap_comment [] []); [intros []|constructor]|].
  split; [vm_compute; reflexivity|]. split; [reflexivity|].
  split; [vm_compute; reflexivity|]. split; [vm_compute; reflexivity|]. discriminate.
Qed.
Print Assumptions trivia_after_slash_refuted.

(** ** C12 *)
Theorem lex_round_trip : forall ws g fuel, gap g ->
  Forall (fun p => well_spelt (fst p) /\ gap (snd p) /\ begins_blank (snd p)) ws ->
  (length (g ++ write ws) + 1 < fuel)%nat ->
  exists ts t c, ask (g ++ write ws) fuel (S (length ws)) c_init = Ok (ts ++ [t], c) /\
    Forall2 reads ts (map fst ws) /\ tk t = TEOF.
Proof. exact lex_round_trip_L. Qed.
Print Assumptions lex_round_trip.

Example lex_round_trip_case :
  let ws := [(WKey "func" FUNC, text_of " "); (WName (text_of "f_1"), text_of " "); (WInt 2147483647, text_of " ");
             (WHex 255, text_of " "); (WFloat [3; 0]%nat [1; 4]%nat, text_of " "); (WOp "<<" SHIFT_LEFT, text_of " "); (WChar "039", text_of " ");
             (WStr (text_of "a""b\c
"), text_of " ")] in
  Forall (fun p => well_spelt (fst p) /\ gap (snd p) /\ begins_blank (snd p)) ws /\
  write ws = text_of "func f_1 2147483647 0xff 30.14 << '\'' ""a\""b\\c\n"" ".
Proof.
  split; [|vm_compute; reflexivity].
  assert (G : gap (text_of " ") /\ begins_blank (text_of " ")).
  { split; [apply gap_blank; [left; reflexivity|constructor]|]. eexists _, _. split; [reflexivity|left; reflexivity]. }
  repeat (apply Forall_cons; [split; [|exact G]|]); try apply Forall_nil; cbn [fst well_spelt]; try (cbn; tauto); try lia;
    try (split; [discriminate|repeat constructor; lia]).
  split; [eexists _, _; split; [reflexivity|]; cbn; tauto|]. split.
  - repeat (apply Forall_cons; [unfold name_char, letter; cbn; tauto|]). apply Forall_nil.
  - intros H. cbn in H. repeat (destruct H as [H|H]; [discriminate|]). destruct H.
Qed.

(** ** C13 *)
Theorem lexer_lines : forall src fuel n ts c, ask src fuel (S n) c_init = Ok (ts, c) ->
  exists ps, cut 1 ps ts /\ joined ps = firstn (Z.to_nat (consumed c)) src /\
    c_line c = 1 + Z.of_nat (newlines (concat (map fst ps))).
Proof. exact lexer_lines_L. Qed.
Print Assumptions lexer_lines.

Theorem lexer_lines_real : forall src fuel n ts c, ask src fuel (S n) c_init = Ok (ts, c) ->
  exists ps, cut 1 ps ts /\ joined ps = firstn (Z.to_nat (consumed c)) src /\
   (newlines (concat (map snd ps)) = 0%nat ->
    c_line c = 1 + Z.of_nat (newlines (firstn (Z.to_nat (consumed c)) src))).
Proof. exact lexer_lines_real_L. Qed.
Print Assumptions lexer_lines_real.

(** A string literal spanning lines makes every later line number too small. *)
Theorem lexer_lines_refuted : exists src ts c, ask src 20 2 c_init = Ok (ts, c) /\
  c_line c <> 1 + Z.of_nat (newlines (firstn (Z.to_nat (consumed c)) src)).
Proof.
  exists (text_of """
"" x"). eexists _, _. split; [vm_compute; reflexivity|]. vm_compute. discriminate.
Qed.
Print Assumptions lexer_lines_refuted.
