(** * C50: 64-bit integers; C51: calls through function numbers *)
From Coq Require Import DecimalString.
From Verif Require Import Base Float64 Values ValuesSpec Lexer Heap Code VM VMSpec Std StdSpec StdProofs I64.
Local Open Scope Z_scope.

(** ** What an [i64] value stands for: a light pointer whose bits are the number in
    two's complement; null, say a variable never assigned, counts as 0 *)
Inductive i64_number : value -> Z -> Prop :=
| i64_null : i64_number VNull 0
| i64_bits z : - 2^63 <= z < 2^63 -> i64_number (VLight (z mod 2^64)) z.

(** The running results of an operation over a list *)
Definition sum (zs : list Z) : Z := fold_right Z.add 0 zs.
Definition product (zs : list Z) : Z := fold_right Z.mul 1 zs.
(** Some result on the way, from left to right, is not a 64-bit number *)
Definition overflows (total : list Z -> Z) (zs : list Z) : Prop :=
  exists front back, zs = front ++ back /\ ~ (- 2^63 <= total front < 2^63).

Lemma of_ptr_bits z : - 2^63 <= z < 2^63 -> of_ptr (z mod 2^64) = z.
Proof. intros R. unfold of_ptr. rewrite Z.add_mod_idemp_l by lia. rewrite Z.mod_small by lia. lia. Qed.
Lemma in_int64_iff z : in_int64 z = true <-> - 2^63 <= z < 2^63.
Proof. unfold in_int64. rewrite Bool.andb_true_iff, Z.leb_le, Z.ltb_lt. tauto. Qed.
Lemma with_number v z : i64_number v z -> exists a, of_ptr a = z /\ forall H (k : Z -> fprog H), with_addr v k = k a.
Proof. intros [|y R]; [exists 0; split; reflexivity|]. exists (y mod 2^64). split; [apply of_ptr_bits; exact R|reflexivity]. Qed.
Lemma number_range v z : i64_number v z -> - 2^63 <= z < 2^63.
Proof. intros [|y R]; lia. Qed.

(** The fold adds [op]'s results *)
Lemma fold_run {H} (M : machine H) callf t (op : Z -> Z -> Z) (total : list Z -> Z) :
  (forall l x, total (l ++ [x]) = op (total l) x) ->
  forall args zs, Forall2 i64_number args zs -> forall front, - 2^63 <= total front < 2^63 ->
  ~ (exists l back, l <> [] /\ zs = l ++ back /\ ~ (- 2^63 <= total (front ++ l) < 2^63)) ->
  run_fprog M callf (i64_fold op (total front) args) t = Ok (VLight (ptr_of (total (front ++ zs))), t) /\ - 2^63 <= total (front ++ zs) < 2^63.
Proof.
  intros T args zs F. induction F as [|v z args zs N F IH]; intros front R O.
  - rewrite app_nil_r. split; [reflexivity|exact R].
  - cbn [i64_fold]. destruct (with_number v z N) as (a & Ea & ->).
    cbv beta zeta. rewrite Ea, <- T. assert (R1 : - 2^63 <= total (front ++ [z]) < 2^63).
    { destruct (Z.le_decidable (- 2^63) (total (front ++ [z]))), (Z.lt_decidable (total (front ++ [z])) (2^63)); try (exfalso; apply O; exists [z], zs; (split; [discriminate|]); split; [reflexivity|lia]). lia. }
    rewrite (proj2 (in_int64_iff _) R1). specialize (IH (front ++ [z]) R1). rewrite <- app_assoc in IH. apply IH.
    intros (l & back & Ne & -> & B). apply O. exists (z :: l), back. split; [discriminate|]. split; [reflexivity|]. rewrite <- app_assoc in B. exact B.
Qed.
Lemma fold_bad {H} (M : machine H) callf t (op : Z -> Z -> Z) (total : list Z -> Z) :
  (forall l x, total (l ++ [x]) = op (total l) x) ->
  forall args zs, Forall2 i64_number args zs -> forall front,
  (exists l back, l <> [] /\ zs = l ++ back /\ ~ (- 2^63 <= total (front ++ l) < 2^63)) ->
  run_fprog M callf (i64_fold op (total front) args) t = UB.
Proof.
  intros T args zs F. induction F as [|v z args zs N F IH]; intros front (l & back & Ne & El & B).
  - symmetry in El. apply app_eq_nil in El as (-> & _). congruence.
  - cbn [i64_fold]. destruct (with_number v z N) as (a & Ea & ->).
    cbv beta zeta. rewrite Ea, <- T. destruct (in_int64 (total (front ++ [z]))) eqn:I; [|reflexivity]. apply in_int64_iff in I.
    apply IH. destruct l as [|y l]; [congruence|]. injection El as <- ->. exists l, back. split; [|split; [reflexivity|rewrite <- app_assoc; exact B]].
    intros ->. apply B. exact I.
Qed.
Lemma sum_app l x : sum (l ++ [x]) = sum l + x.
Proof. unfold sum. induction l as [|y l IH]; cbn [app fold_right]; lia. Qed.
Lemma product_app l x : product (l ++ [x]) = product l * x.
Proof. unfold product. induction l as [|y l IH]; cbn [app fold_right]; [lia|]. rewrite IH. lia. Qed.

Lemma ops_run {H} (M : machine H) (t : thread H) op total fn args zs :
  (forall l x, total (l ++ [x]) = op (total l) x) -> (forall x, total [x] = x) ->
  (forall v rest, fn (v :: rest) = with_addr v (fun a => i64_fold op (of_ptr a) rest)) ->
  (- 2^63 <= total [] < 2^63) -> args <> [] -> Forall2 i64_number args zs ->
  (~ overflows total zs -> exists v, returns M fn args t v t /\ i64_number v (total zs)) /\
  (overflows total zs -> undefined M fn args t).
Proof.
  intros T T1 Fn R0 Ne F. destruct F as [|v z args zs N F]; [congruence|]. pose proof (number_range _ _ N) as Rz. destruct (with_number v z N) as (a & Ea & K).
  assert (E : forall callf, run_fprog M callf (fn (v :: args)) t = run_fprog M callf (i64_fold op (total [z]) args) t).
  { intros callf. rewrite Fn, K, Ea, T1. reflexivity. }
  assert (Rt : - 2^63 <= total [z] < 2^63) by (rewrite T1; exact Rz). split.
  - intros O. assert (O' : ~ (exists l back, l <> [] /\ zs = l ++ back /\ ~ (- 2^63 <= total ([z] ++ l) < 2^63))).
    { intros (l & back & _ & -> & B). apply O. exists (z :: l), back. split; [reflexivity|exact B]. }
    exists (VLight (ptr_of (total (z :: zs)))). split.
    + intros callf. rewrite E. exact (proj1 (fold_run M callf t op total T args zs F [z] Rt O')).
    + constructor. exact (proj2 (fold_run M (fun _ _ _ => UB) t op total T args zs F [z] Rt O')).
  - intros (front & back & Ef & B) callf. rewrite E. apply (fold_bad M callf t op total T args zs F [z]).
    destruct front as [|y front]; [contradiction|]. injection Ef as <- ->. exists front, back.
    split; [intros ->; apply B; exact Rt|]. split; [reflexivity|exact B].
Qed.

(** ** C50 *)
Theorem i64_from_int : forall {H} (M : machine H) (t : thread H) z, - 2^63 <= z < 2^63 ->
  exists v, returns M std_int_to_i64 [VInt z] t v t /\ i64_number v z.
Proof. intros H M t z R. exists (VLight (z mod 2^64)). split; [intros callf; reflexivity|constructor; exact R]. Qed.
Print Assumptions i64_from_int.

(** Sums and products are exact as long as they fit, and undefined as soon as they
    do not on the way *)
Theorem i64_sums : forall {H} (M : machine H) (t : thread H) args zs, args <> [] -> Forall2 i64_number args zs ->
  (~ overflows sum zs -> exists v, returns M std_i64_add_many args t v t /\ i64_number v (sum zs)) /\
  (overflows sum zs -> undefined M std_i64_add_many args t).
Proof.
  intros H M t args zs. apply (ops_run M t Z.add sum); [apply sum_app|intros x; unfold sum; cbn [fold_right]; lia|reflexivity|unfold sum; cbn [fold_right]; lia].
Qed.
Print Assumptions i64_sums.
Theorem i64_products : forall {H} (M : machine H) (t : thread H) args zs, args <> [] -> Forall2 i64_number args zs ->
  (~ overflows product zs -> exists v, returns M std_i64_mul_many args t v t /\ i64_number v (product zs)) /\
  (overflows product zs -> undefined M std_i64_mul_many args t).
Proof.
  intros H M t args zs. apply (ops_run M t Z.mul product); [apply product_app|intros x; unfold product; cbn [fold_right]; lia|reflexivity|unfold product; cbn [fold_right]; lia].
Qed.
Print Assumptions i64_products.

Theorem i64_is_printed : forall {H} (M : machine H) (t : thread H) v z, i64_number v z ->
  exists r t', returns M std_i64_to_string [v] t r t' /\ new_string t (decimal z) r t'.
Proof.
  intros H M t v z N. exists (VStr (t_next t)), (snd (alloc t (BStr (decimal z)))). destruct (with_number v z N) as (a & Ea & K). split.
  - intros callf. unfold std_i64_to_string. cbn [arg nth_error]. rewrite K, Ea. cbn [run_fprog]. unfold decimal.
    rewrite (dec_text_firstn z (number_range _ _ N)). reflexivity.
  - unfold new_string, alloc. cbn [snd t_heap t_stk t_globs t_host t_pc t_fp t_frames]. split; [reflexivity|]. split.
    + apply tv_heap with (m := false). cbn. rewrite Nat.eqb_refl. reflexivity.
    + split; [|auto 10]. intros id Ne. cbn. destruct (Nat.eqb_spec (t_next t) id); [congruence|reflexivity].
Qed.
Print Assumptions i64_is_printed.

(** [==] on them compares the numbers; but null is not 0 *)
Theorem i64_equality : forall h x y vx vy, i64_number vx x -> i64_number vy y -> vx <> VNull -> vy <> VNull ->
  values_equal h vx vy = Ok (x =? y).
Proof.
  intros h x y vx vy [|x' Rx] [|y' Ry] N1 N2; try congruence. cbn [values_equal]. f_equal. destruct (Z.eqb_spec x' y') as [->|Ne]; [apply Z.eqb_refl|].
  apply Z.eqb_neq. intros E. apply Ne. rewrite <- (of_ptr_bits x' Rx), <- (of_ptr_bits y' Ry), E. reflexivity.
Qed.
Print Assumptions i64_equality.
Theorem i64_null_is_zero_refuted : ~ (forall h x y vx vy, i64_number vx x -> i64_number vy y -> values_equal h vx vy = Ok (x =? y)).
Proof. intros A. specialize (A [] 0 0 VNull (VLight (0 mod 2^64)) i64_null (i64_bits 0 ltac:(lia))). discriminate A. Qed.
Print Assumptions i64_null_is_zero_refuted.
(** The order matters: 2^63 - 1, 1, -1 has a sum that fits, but adding them in this
    order is undefined *)
Theorem i64_sum_that_fits_refuted : ~ (forall {H} (M : machine H) (t : thread H) args zs, args <> [] -> Forall2 i64_number args zs ->
  - 2^63 <= sum zs < 2^63 -> exists v, returns M std_i64_add_many args t v t /\ i64_number v (sum zs)).
Proof.
  intros A. set (n z := VLight (z mod 2^64)).
  set (M := mkMachine unit [] [] [] [] 0 (mkNatives unit (fun _ _ _ => []) (fun _ w _ => w)) None 0).
  assert (F : Forall2 i64_number [n (2^63 - 1); n 1; n (-1)] [2^63 - 1; 1; -1]) by (repeat constructor; lia).
  assert (Ne : [n (2^63 - 1); n 1; n (-1)] <> []) by discriminate. destruct (A unit M (init_thread tt) _ _ Ne F) as (v & R & _); [unfold sum; cbn [fold_right]; lia|].
  specialize (R (fun _ _ _ => UB)). vm_compute in R. discriminate R.
Qed.
Print Assumptions i64_sum_that_fits_refuted.
Example i64_case : let n z := VLight (z mod 2^64) in
  Forall2 i64_number [n (2^62); VNull; n (-5)] [2^62; 0; -5] /\ ~ overflows sum [2^62; 0; -5] /\ overflows product [2^62; 3; 0].
Proof.
  cbv zeta. split; [repeat constructor; lia|]. split.
  - intros (f & b & E & B). destruct f as [|x [|y [|z [|w f]]]]; cbn [app] in E; try (injection E; intros; subst); try discriminate; apply B; unfold sum; cbn [fold_right]; lia.
  - exists [2^62; 3], [0]. split; [reflexivity|]. unfold product. cbn [fold_right]. lia.
Qed.
