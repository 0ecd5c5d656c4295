From Verif Require Import Base Code CodeSpec.
Local Open Scope Z_scope.

Lemma align_up_eq pos k : 0 <= k -> align_up pos (2^k) = (pos + (2^k - 1)) / 2^k * 2^k.
Proof.
  intros Hk. unfold align_up.
  rewrite <- Z.ldiff_land.
  replace (2^k - 1) with (Z.ones k) at 2 by (rewrite Z.ones_equiv; lia).
  rewrite Z.ldiff_ones_r by lia.
  rewrite Z.shiftl_mul_pow2, Z.shiftr_div_pow2 by lia. reflexivity.
Qed.

Lemma align_up_next pos k : 0 <= k -> next_aligned (2^k) pos (align_up pos (2^k)).
Proof.
  intros Hk. rewrite align_up_eq by lia.
  assert (P : 0 < 2^k) by (apply Z.pow_pos_nonneg; lia).
  set (a := 2^k) in *. clearbody a.
  pose proof (Z.div_mod (pos + (a - 1)) a ltac:(lia)) as E.
  pose proof (Z.mod_pos_bound (pos + (a - 1)) a P) as M.
  split; [nia|]. split; [eexists; reflexivity|].
  intros q Hq [c Hc]. subst q.
  assert ((pos + (a - 1)) / a <= c); [|nia].
  apply Z.lt_succ_r. apply Z.div_lt_upper_bound; nia.
Qed.

Lemma next_aligned_unique a pos r r' : next_aligned a pos r -> next_aligned a pos r' -> r = r'.
Proof. intros (A & B & C) (A' & B' & C'). apply Z.le_antisymm; auto. Qed.

Lemma align_up_ge pos k : 0 <= k -> pos <= align_up pos (2^k).
Proof. intros. destruct (align_up_next pos k); tauto. Qed.

Lemma align_up_idem pos k : 0 <= k -> align_up (align_up pos (2^k)) (2^k) = align_up pos (2^k).
Proof.
  intros Hk. eapply next_aligned_unique. { apply align_up_next; lia. }
  destruct (align_up_next pos k Hk) as (A & B & C).
  split; [lia|]. split; [assumption|]. intros; assumption.
Qed.

Lemma le_bytes_length n z : length (le_bytes n z) = n.
Proof. revert z; induction n; simpl; auto. Qed.

Lemma le_val_bytes n z : le_val (le_bytes n z) = z mod 256 ^ Z.of_nat n.
Proof.
  revert z; induction n; intros z; simpl le_bytes; simpl le_val.
  - simpl. rewrite Z.mod_1_r. reflexivity.
  - rewrite IHn. rewrite Nat2Z.inj_succ, Z.pow_succ_r by lia.
    rewrite Z.rem_mul_r; [reflexivity|lia|apply Z.pow_pos_nonneg; lia].
Qed.

Lemma le_bytes_byte n z : Forall is_byte (le_bytes n z).
Proof.
  revert z; induction n; intros z; simpl; constructor; auto.
  apply Z.mod_pos_bound; lia.
Qed.

Lemma plen_app a b : plen (a ++ b) = plen a + plen b.
Proof. unfold plen. rewrite app_length. lia. Qed.
Lemma plen_nonneg p : 0 <= plen p. Proof. unfold plen; lia. Qed.

Lemma byte_at_app pre b post : byte_at (pre ++ b :: post) (plen pre) = Ok b.
Proof.
  unfold byte_at, plen. destruct (Z.ltb_spec (Z.of_nat (length pre)) 0); [lia|].
  rewrite Nat2Z.id, nth_error_app2, Nat.sub_diag by lia. reflexivity.
Qed.

Lemma byte_at_app' pre b post pc : pc = plen pre -> byte_at (pre ++ b :: post) pc = Ok b.
Proof. intros ->; apply byte_at_app. Qed.

Lemma bytes_at_app bs : forall pre post, bytes_at (pre ++ bs ++ post) (plen pre) (length bs) = Ok bs.
Proof.
  induction bs as [|b bs IH]; intros pre post; simpl; [reflexivity|].
  rewrite byte_at_app.
  replace (plen pre + 1) with (plen (pre ++ [b])) by (rewrite plen_app; reflexivity).
  replace (pre ++ b :: bs ++ post) with ((pre ++ [b]) ++ bs ++ post)
    by (rewrite <- app_assoc; reflexivity).
  rewrite IH. reflexivity.
Qed.

(** The heart of the codec: whatever follows, the reader that starts where the
    emitter started finds the value and stops where the emitter stopped. *)
Lemma gen_read n k v pre post :
  0 <= k ->
  let '(p, pos) := gen_value n (2^k) v pre in
  next_aligned (2^k) (plen pre) pos /\
  p = pre ++ repeat op_misaligned (Z.to_nat (pos - plen pre)) ++ le_bytes n v /\
  plen p = pos + Z.of_nat n /\
  read_value_at n (2^k) (p ++ post) (plen pre) = Ok (v mod 256 ^ Z.of_nat n, plen p).
Proof.
  intros Hk. unfold gen_value.
  set (q := align_up (plen pre) (2^k)).
  pose proof (align_up_ge (plen pre) k Hk) as G. fold q in G.
  set (pad := repeat op_misaligned (Z.to_nat (q - plen pre))).
  assert (Q : plen (pre ++ pad) = q).
  { rewrite plen_app. unfold pad, plen. rewrite repeat_length. unfold plen in *. lia. }
  rewrite Q. split; [apply align_up_next; lia|].
  split; [rewrite <- app_assoc; reflexivity|].
  assert (L : plen ((pre ++ pad) ++ le_bytes n v) = q + Z.of_nat n).
  { rewrite plen_app, Q. unfold plen. rewrite le_bytes_length. lia. }
  split; [exact L|].
  unfold read_value_at. fold q. rewrite <- app_assoc.
  pose proof (bytes_at_app (le_bytes n v) (pre ++ pad) post) as B.
  rewrite le_bytes_length in B. rewrite Q in B. rewrite B, le_val_bytes, L. reflexivity.
Qed.

Lemma read4 v pre post : is_index v ->
  read_value_at 4 4 (fst (gen_value 4 4 v pre) ++ post) (plen pre) =
    Ok (v, plen (fst (gen_value 4 4 v pre))).
Proof.
  intros Hv. pose proof (gen_read 4 2 v pre post ltac:(lia)) as G.
  change (2^2) with 4 in G. destruct (gen_value 4 4 v pre) as [p pos]. cbn [fst].
  destruct G as (_ & _ & _ & R). rewrite R. unfold is_index in Hv.
  rewrite Z.mod_small; [reflexivity|]. change (256 ^ Z.of_nat 4) with (2^32). lia.
Qed.

Lemma read8 v pre post :
  read_value_at 8 8 (fst (gen_value 8 8 v pre) ++ post) (plen pre) =
    Ok (v mod 2^64, plen (fst (gen_value 8 8 v pre))).
Proof.
  pose proof (gen_read 8 3 v pre post ltac:(lia)) as G.
  change (2^3) with 8 in G. destruct (gen_value 8 8 v pre) as [p pos]. cbn [fst].
  destruct G as (_ & _ & _ & R). exact R.
Qed.

Lemma gen_value_ext n a v pre : exists tl, fst (gen_value n a v pre) = pre ++ tl.
Proof. unfold gen_value; cbn [fst]. rewrite <- app_assoc. eexists; reflexivity. Qed.

Lemma gen_instr_ext pre i : exists tl, gen_instr pre i = pre ++ tl.
Proof.
  destruct i; simpl; unfold gen_code; rewrite <- ?app_assoc; try (eexists; reflexivity);
    match goal with |- context [fst (gen_value ?n ?a ?v ?p)] =>
      destruct (gen_value_ext n a v p) as [tl E]; rewrite E; rewrite <- ?app_assoc;
      eexists; reflexivity end.
Qed.

Lemma to_signed64_id z : - 2^63 <= z < 2^63 -> to_signed64 (z mod 2^64) = z.
Proof.
  intros H. unfold to_signed64.
  destruct (Z.ltb_spec (z mod 2^64) (2^63)); Z.to_euclidean_division_equations; lia.
Qed.

Lemma plen1 p b : plen (p ++ [b]) = plen p + 1.
Proof. rewrite plen_app; reflexivity. Qed.

Lemma decode_gen pre i post : codable i ->
  decode (gen_instr pre i ++ post) (plen pre) = Ok (i, plen (gen_instr pre i)).
Proof.
  intros C.
  assert (H1 : forall op, byte_at (gen_code pre op ++ post) (plen pre) = Ok op).
  { intros. unfold gen_code. rewrite <- app_assoc. apply byte_at_app. }
  assert (H2 : forall op b, byte_at (gen_code (gen_code pre op) b ++ post) (plen pre) = Ok op
     /\ byte_at (gen_code (gen_code pre op) b ++ post) (plen pre + 1) = Ok b).
  { intros. unfold gen_code. rewrite <- !app_assoc. split; [apply byte_at_app|].
    rewrite app_assoc. apply byte_at_app'. rewrite plen1. reflexivity. }
  assert (H3 : forall n a v op, byte_at (fst (gen_value n a v (gen_code pre op)) ++ post) (plen pre) = Ok op).
  { intros. destruct (gen_value_ext n a v (gen_code pre op)) as [tl E]. rewrite E.
    unfold gen_code. rewrite <- !app_assoc. apply byte_at_app. }
  assert (H4 : forall n a v op b,
     byte_at (fst (gen_value n a v (gen_code (gen_code pre op) b)) ++ post) (plen pre) = Ok op
     /\ byte_at (fst (gen_value n a v (gen_code (gen_code pre op) b)) ++ post) (plen pre + 1) = Ok b).
  { intros. destruct (gen_value_ext n a v (gen_code (gen_code pre op) b)) as [tl E]. rewrite E.
    unfold gen_code. rewrite <- !app_assoc. split; [apply byte_at_app|].
    rewrite app_assoc. apply byte_at_app'. rewrite plen1. reflexivity. }
  assert (L1 : forall op, plen pre + 1 = plen (gen_code pre op)).
  { intros. unfold gen_code. rewrite plen1. lia. }
  assert (L2 : forall op b, plen pre + 2 = plen (gen_code (gen_code pre op) b)).
  { intros. unfold gen_code. rewrite !plen1. lia. }
  destruct i; simpl in C; try contradiction; unfold decode, gen_instr;
    try (destruct o; cbn [binop_code]);
    try (rewrite H1; rewrite <- L1; reflexivity);
    try (match goal with |- context [gen_code (gen_code pre ?op) ?b ++ post] =>
           destruct (H2 op b) as [E1 E2]; rewrite E1, E2; rewrite <- L2; reflexivity end);
    try (rewrite H3;
         match goal with |- context [gen_code pre ?op] => rewrite (L1 op) end;
         rewrite read4 by assumption; reflexivity);
    try (match goal with |- context [gen_value ?n ?a ?v (gen_code (gen_code pre ?op) ?b)] =>
           destruct (H4 n a v op b) as [E1 E2]; rewrite E1, E2; rewrite (L2 op b) end;
         rewrite read4 by tauto; reflexivity).
  - rewrite H3. rewrite (L1 4). rewrite read8. rewrite to_signed64_id by lia. reflexivity.
  - rewrite H3. rewrite (L1 8). rewrite read8. rewrite Z.mod_small by lia. reflexivity.
Qed.

(** Patching. *)
Lemma put_bytes_eq bs : forall pre old post,
  length old = length bs ->
  put_bytes (pre ++ old ++ post) (length pre) bs = Ok (pre ++ bs ++ post).
Proof.
  induction bs as [|b bs IH]; intros pre [|o old] post L; simpl in L; try discriminate; simpl.
  - reflexivity.
  - assert ((length pre <? length (pre ++ o :: old ++ post))%nat = true) as ->.
    { apply Nat.ltb_lt. rewrite app_length. simpl. lia. }
    replace (update (pre ++ o :: old ++ post) (length pre) b) with ((pre ++ [b]) ++ old ++ post).
    2:{ unfold update. rewrite firstn_app, Nat.sub_diag, firstn_all, skipn_app, skipn_all, Nat.sub_diag.
        cbn. rewrite app_nil_r, <- app_assoc. reflexivity. }
    replace (S (length pre)) with (length (pre ++ [b])) by (rewrite app_length; simpl; lia).
    rewrite IH by lia. rewrite <- app_assoc. reflexivity.
Qed.

Lemma patch_operand n k v w pre post :
  0 <= k ->
  let '(p, pos) := gen_value n (2^k) v pre in
  gen_value_at n (2^k) w pos (p ++ post) = Ok (fst (gen_value n (2^k) w pre) ++ post).
Proof.
  intros Hk. pose proof (gen_read n k v pre post Hk) as G.
  unfold gen_value in *.
  set (q := align_up (plen pre) (2^k)) in *.
  set (pad := repeat op_misaligned (Z.to_nat (q - plen pre))) in *. cbn [fst].
  destruct G as ((A & B & _) & _ & _ & _).
  assert (P : 0 < 2^k) by (apply Z.pow_pos_nonneg; lia).
  unfold gen_value_at.
  assert (Z.rem (plen (pre ++ pad)) (2^k) =? 0 = true) as ->.
  { apply Z.eqb_eq. apply Z.rem_divide; [lia|]. exact B. }
  cbn [oassert]. assert (0 <=? plen (pre ++ pad) = true) as -> by (apply Z.leb_le, plen_nonneg).
  cbn [orequire]. unfold plen at 1. rewrite Nat2Z.id.
  rewrite <- !app_assoc. rewrite app_assoc.
  rewrite put_bytes_eq by (rewrite !le_bytes_length; reflexivity).
  rewrite <- !app_assoc. reflexivity.
Qed.

(** All instructions of one shape have the same length, so patching one jump
    moves nothing else. *)
Lemma gen_value_len n a v w p : plen (fst (gen_value n a v p)) = plen (fst (gen_value n a w p)).
Proof. unfold gen_value; cbn [fst]. rewrite !plen_app. unfold plen. rewrite !le_bytes_length. reflexivity. Qed.

(** A constant string with a large index. *)
Lemma push_string_blind pre i j post :
  plen pre mod 8 < 4 ->
  decode (gen_instr pre (IPushString i) ++ post) (plen pre) =
  decode (gen_instr pre (IPushString j) ++ post) (plen pre).
Proof.
  intros M.
  assert (H3 : forall n a v op, byte_at (fst (gen_value n a v (gen_code pre op)) ++ post) (plen pre) = Ok op).
  { intros. destruct (gen_value_ext n a v (gen_code pre op)) as [tl E]. rewrite E.
    unfold gen_code. rewrite <- !app_assoc. apply byte_at_app. }
  unfold decode, gen_instr. rewrite !H3.
  assert (E : read_value_at 8 8 (fst (gen_value 4 4 i (gen_code pre 9)) ++ post) (plen pre + 1) =
              read_value_at 8 8 (fst (gen_value 4 4 j (gen_code pre 9)) ++ post) (plen pre + 1)).
  2:{ rewrite E. reflexivity. }
  set (P := gen_code pre 9).
  assert (LP : plen P = plen pre + 1) by (unfold P, gen_code; apply plen1).
  pose proof (plen_nonneg pre) as NN.
  destruct (align_up_next (plen P) 2 ltac:(lia)) as (A1 & B1 & C1).
  destruct (align_up_next (plen pre + 1) 3 ltac:(lia)) as (A2 & B2 & C2).
  change (2^2) with 4 in *. change (2^3) with 8 in *.
  set (q4 := align_up (plen P) 4) in *. set (q8 := align_up (plen pre + 1) 8) in *.
  assert (Q : q4 + 4 <= q8).
  { destruct B2 as [c2 E2]. assert (q4 <= 8 * (plen pre / 8) + 4).
    { apply C1. - rewrite LP. Z.to_euclidean_division_equations; lia.
      - exists (2 * (plen pre / 8) + 1). lia. }
    assert (8 * (plen pre / 8) + 8 <= q8); [|lia].
    rewrite E2 in *. Z.to_euclidean_division_equations. lia. }
  unfold read_value_at. fold q8.
  assert (X : forall v, exists l, fst (gen_value 4 4 v P) ++ post = l ++ post /\ plen l = q4 + 4).
  { intros v. pose proof (gen_read 4 2 v P post ltac:(lia)) as G. change (2^2) with 4 in G.
    destruct (gen_value 4 4 v P) as [p pos] eqn:GV. destruct G as (NA & _ & L & _).
    exists p. split; [reflexivity|].
    assert (pos = q4). { eapply next_aligned_unique; [exact NA|]. apply (align_up_next (plen P) 2). lia. }
    subst pos. rewrite L. reflexivity. }
  destruct (X i) as (li & -> & Li). destruct (X j) as (lj & -> & Lj).
  assert (Y : forall n q, q4 + 4 <= q -> bytes_at (li ++ post) q n = bytes_at (lj ++ post) q n).
  { induction n as [|n IH]; intros q Hq; [reflexivity|]. simpl. rewrite IH by lia.
    assert (byte_at (li ++ post) q = byte_at (lj ++ post) q) as ->; [|reflexivity].
    unfold byte_at. destruct (q <? 0); [reflexivity|].
    unfold plen in *. rewrite !nth_error_app2 by lia. f_equal. f_equal. lia. }
  rewrite (Y 8%nat) by lia. reflexivity.
Qed.
