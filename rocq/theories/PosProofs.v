From Verif Require Import Base Pos.
Local Open Scope nat_scope.

Lemma skipn_add {A} n m (l : list A) : skipn n (skipn m l) = skipn (m + n) l.
Proof.
  revert l. induction m as [|m IH]; intros l; [reflexivity|].
  destruct l; [destruct n; reflexivity|]. apply IH.
Qed.

Definition newlines (s : text) : nat := length (filter (fun c => Ascii.eqb c newline) s).

Lemma newlines_app a b : newlines (a ++ b) = newlines a + newlines b.
Proof. unfold newlines. rewrite filter_app, app_length. reflexivity. Qed.

Lemma translate_loop_spec n : forall src line,
  translate_loop src n line =
  if n <=? length src then Ok (line + newlines (firstn n src)) else Abort.
Proof.
  induction n as [|n IH]; intros src line; [cbn; rewrite Nat.add_0_r; destruct src; reflexivity|].
  destruct src as [|c src]; [reflexivity|]. cbn [translate_loop length firstn Nat.leb].
  rewrite IH. destruct (n <=? length src); [|reflexivity]. f_equal.
  unfold newlines. cbn [filter]. destruct (Ascii.eqb c newline); cbn [length]; lia.
Qed.

Lemma translate_pos_L src pos : (0 <= pos)%Z ->
  translate_pos src pos =
  if (pos <=? Z.of_nat (length src))%Z then Ok (1 + newlines (firstn (Z.to_nat pos) src)) else Abort.
Proof.
  intros H. unfold translate_pos. rewrite translate_loop_spec.
  destruct (Z.leb_spec pos (Z.of_nat (length src))) as [L|L];
  destruct (Nat.leb_spec (Z.to_nat pos) (length src)); try lia; reflexivity.
Qed.

Lemma find_newline_spec s : match find_newline s with
  | Some n => nth_error s n = Some newline /\ newlines (firstn n s) = 0 /\ n < length s
  | None => newlines s = 0
  end.
Proof.
  induction s as [|c s IH]; [reflexivity|]. cbn [find_newline].
  destruct (Ascii.eqb c newline) eqn:E.
  - apply Ascii.eqb_eq in E. subst. cbn. repeat split; lia.
  - destruct (find_newline s) as [n|]; unfold newlines in *; cbn; rewrite E; [|exact IH].
    destruct IH as (A & B & C). repeat split; auto. lia.
Qed.

(** The column: characters since the last newline before [pos]. *)
Definition is_column (src : text) (pos col : nat) : Prop :=
  col <= pos /\ newlines (skipn (pos - col) (firstn pos src)) = 0 /\
  (col = pos \/ nth_error src (pos - col - 1) = Some newline).

Lemma newlines_firstn_le s n m : n <= m -> newlines (firstn n s) <= newlines (firstn m s).
Proof.
  intros H. rewrite <- (firstn_skipn n (firstn m s)).
  rewrite firstn_firstn, Nat.min_l by lia. rewrite newlines_app. lia.
Qed.

Lemma friendly_loop_spec whole : forall fuel src start pos line,
  src = skipn start whole -> start <= pos <= length whole ->
  line = newlines (firstn start whole) ->
  (start = 0 \/ nth_error whole (start - 1) = Some newline) -> length src < fuel ->
  exists col, friendly_loop fuel src start pos line = Ok (newlines (firstn pos whole), col) /\
    is_column whole pos col.
Proof.
  induction fuel as [|fuel IH]; intros src start pos line Hs Hp Hl Hst Hf; [lia|].
  cbn [friendly_loop]. pose proof (find_newline_spec src) as F.
  assert (Here : newlines (skipn start (firstn pos whole)) = 0 ->
    exists col, oassert (start <=? pos) (Ok (line, pos - start)) = Ok (newlines (firstn pos whole), col) /\
      is_column whole pos col).
  { intros Z0. replace (start <=? pos) with true by (symmetry; apply Nat.leb_le; lia).
    exists (pos - start). cbn [oassert]. split.
    - f_equal. f_equal. rewrite Hl. rewrite <- (firstn_skipn start (firstn pos whole)) at 1.
      rewrite newlines_app, Z0, firstn_firstn, Nat.min_l by lia. lia.
    - unfold is_column. replace (pos - (pos - start)) with start by lia.
      split; [lia|]. split; [exact Z0|]. destruct Hst as [->|Hst]; [left; lia|right; exact Hst]. }
  assert (FS : skipn start (firstn pos whole) = firstn (pos - start) src).
  { subst src. apply skipn_firstn_comm. }
  destruct (find_newline src) as [n|].
  - destruct F as (N & Z0 & Ln). destruct (pos <=? start + n) eqn:E.
    + apply Nat.leb_le in E. apply Here. rewrite FS.
      pose proof (newlines_firstn_le src (pos - start) n ltac:(lia)). lia.
    + apply Nat.leb_gt in E.
      assert (NW : nth_error whole (start + n) = Some newline).
      { rewrite Hs in N. rewrite <- N.
        rewrite <- (firstn_skipn start whole) at 1.
        rewrite nth_error_app2 by (rewrite firstn_length; lia).
        rewrite firstn_length, Nat.min_l by lia. f_equal. lia. }
      apply IH.
      * subst src. rewrite skipn_add. f_equal.
      * lia.
      * replace (start + S n) with (S (start + n)) by lia.
        assert (X : firstn (S (start + n)) whole = firstn start whole ++ firstn (S n) src).
        { subst src. rewrite <- (firstn_skipn start whole) at 1.
          rewrite firstn_app. rewrite firstn_firstn, Nat.min_r by lia.
          rewrite firstn_length, Nat.min_l by lia. f_equal. f_equal. lia. }
        rewrite X, newlines_app, <- Hl.
        assert (Y : newlines (firstn (S n) src) = 1); [|lia].
        { apply nth_error_split in N as (l1 & l2 & E1 & L1). rewrite E1 in Z0 |- *.
          replace (firstn (S n) (l1 ++ newline :: l2)) with (l1 ++ [newline]).
          - rewrite firstn_app, <- L1, Nat.sub_diag, firstn_all in Z0. cbn [firstn] in Z0.
            rewrite app_nil_r in Z0. rewrite newlines_app, Z0. reflexivity.
          - rewrite firstn_app. rewrite firstn_all2 by lia.
            replace (S n - length l1) with 1 by lia. reflexivity. }
      * right. replace (start + S n - 1) with (start + n) by lia. exact NW.
      * rewrite skipn_length. lia.
  - apply Here. rewrite FS.
    pose proof (newlines_firstn_le src (pos - start) (length src + pos) ltac:(lia)) as L.
    rewrite (firstn_all2 src (n := length src + pos)) in L by lia. lia.
Qed.

Lemma friendly_pos_L src pos : pos < length src ->
  exists col, friendly_pos src (length src) pos = Ok (newlines (firstn pos src), col) /\
    is_column src pos col.
Proof.
  intros H. unfold friendly_pos. replace (pos <? length src) with true by (symmetry; apply Nat.ltb_lt; lia).
  cbn [oassert]. apply (friendly_loop_spec src); auto; lia.
Qed.

Lemma column_unique src pos c c' : pos <= length src -> is_column src pos c -> is_column src pos c' -> c = c'.
Proof.
  assert (G : forall c c', pos <= length src -> is_column src pos c -> is_column src pos c' -> c < c' -> False).
  { clear c c'. intros c c' Hp (A1 & A2 & A3) (B1 & B2 & B3) L.
    destruct A3 as [A3|A3]; [lia|].
    assert (X : nth_error (skipn (pos - c') (firstn pos src)) (c' - c - 1) = Some newline).
    { rewrite <- A3. replace (nth_error src (pos - c - 1)) with (nth_error (firstn pos src) (pos - c - 1)).
      - rewrite <- (firstn_skipn (pos - c') (firstn pos src)) at 2.
        rewrite nth_error_app2 by (rewrite firstn_length, firstn_length; lia).
        f_equal. rewrite !firstn_length. lia.
      - rewrite <- (firstn_skipn pos src) at 2. rewrite nth_error_app1 by (rewrite firstn_length; lia). reflexivity. }
    apply nth_error_split in X as (l1 & l2 & E & _). rewrite E, newlines_app in B2.
    unfold newlines in B2 at 2. cbn in B2. lia. }
  intros Hp A B. destruct (Nat.lt_trichotomy c c') as [L|[L|L]]; [exfalso; eauto|exact L|exfalso; eauto].
Qed.
