(** * The containers of the standard library keep the collector's rules *)
From Verif Require Import Base Float64 Values Heap GCSpec Code VM GCTransSpec Array ArrayProofs Dict DictProofs Std StdBox.
Local Open Scope nat_scope.

(** ** Arrays: every element satisfies [P] *)
Definition aall (P : value -> Prop) (a : array) : Prop :=
  forall i v, array_get a (Z.of_nat i) = Ok v -> P v.

Definition call (P : value -> Prop) (n : nat) (cells : list (option value)) : Prop :=
  forall i v, i < n -> nth_error cells i = Some (Some v) -> P v.
Definition aall' (P : value -> Prop) (a : array) : Prop :=
  match a with None => True | Some b => call P (sb_n b) (sb_cells b) end.

Lemma array_get_spec a i v : array_get a (Z.of_nat i) = Ok v <->
  exists b, a = Some b /\ i < sb_n b /\ nth_error (sb_cells b) i = Some (Some v).
Proof.
  unfold array_get, index_ok. destruct a as [b|]; cbn [sb_count].
  - rewrite Nat2Z.id. unfold read_cell. split.
    + destruct (0 <=? Z.of_nat i)%Z; cbn [andb]; [|discriminate]. destruct (Z.of_nat i <? Z.of_nat (sb_n b))%Z eqn:L; [|discriminate].
      apply Z.ltb_lt in L. destruct (nth_error (sb_cells b) i) as [[x|]|] eqn:E; try discriminate. intros [= ->]. exists b. repeat split; auto. lia.
    + intros (b' & [= <-] & L & E). rewrite (proj2 (Z.leb_le 0 (Z.of_nat i))) by lia. rewrite (proj2 (Z.ltb_lt _ _)) by lia. cbn [andb]. rewrite E. reflexivity.
  - split; [|intros (b & [=] & _)]. destruct ((0 <=? Z.of_nat i)%Z && (Z.of_nat i <? Z.of_nat 0)%Z)%bool; discriminate.
Qed.

Lemma aall_iff (P : value -> Prop) a : aall P a <-> aall' P a.
Proof.
  split.
  - intros A. destruct a as [b|]; cbn; [|exact I]. intros i v L E. apply (A i). apply array_get_spec. eauto.
  - intros A i v E. apply array_get_spec in E as (b & -> & L & E). exact (A i v L E).
Qed.

Lemma grow_call (P : value -> Prop) b inc n : call P n (sb_cells b) -> call P n (sb_cells (sb_grow (Some b) inc)).
Proof.
  intros C i v L E. cbn [sb_grow sb_cells] in E.
  set (m := Nat.max (2 * sb_cap b) (sb_n b + inc)) in E.
  assert (X : firstn m (sb_cells b) = sb_cells b) by (apply firstn_all2; unfold m, sb_cap; lia).
  rewrite X in E. destruct (Nat.lt_ge_cases i (length (sb_cells b))).
  - rewrite nth_error_app1 in E by lia. exact (C i v L E).
  - rewrite nth_error_app2 in E by lia. apply nth_error_In in E. apply repeat_spec in E. discriminate.
Qed.

Lemma maybegrow_call (P : value -> Prop) a inc : aall' P a -> call P (sb_n (sb_maybegrow a inc)) (sb_cells (sb_maybegrow a inc)) /\ sb_n (sb_maybegrow a inc) = sb_count a.
Proof.
  intros A. destruct a as [b|]; cbn [sb_maybegrow sb_count].
  - destruct (sb_cap b <=? sb_n b + inc); [|split; auto]. split; [|reflexivity]. cbn [sb_grow sb_n]. apply grow_call. exact A.
  - cbn. split; [|reflexivity]. intros i v L. lia.
Qed.

Lemma write_spec b i v b' : write_cell b i v = Ok b' ->
  sb_n b' = sb_n b /\ forall j, nth_error (sb_cells b') j = if j =? i then Some (Some v) else nth_error (sb_cells b) j.
Proof.
  unfold write_cell. destruct (i <? sb_cap b) eqn:L; [|discriminate]. intros [= <-]. cbn [sb_n sb_cells]. split; [reflexivity|].
  intros j. destruct (Nat.eqb_spec j i) as [->|N].
  - apply nth_error_update_eq. apply Nat.ltb_lt in L. exact L.
  - apply nth_error_update_ne. auto.
Qed.

Lemma write_call (P : value -> Prop) n b i v b' : write_cell b i v = Ok b' -> P v -> call P n (sb_cells b) -> call P n (sb_cells b').
Proof.
  intros W Pv C j x L E. rewrite (proj2 (write_spec _ _ _ _ W)) in E. destruct (j =? i); [injection E as <-; exact Pv|]. exact (C j x L E).
Qed.

Lemma nth_error_skipn_local {A} (l : list A) : forall n i, nth_error (skipn n l) i = nth_error l (n + i).
Proof. induction l as [|x l IH]; intros [|n] i; cbn; auto. destruct i; reflexivity. Qed.

Lemma move_spec b dst src n b' : move_cells b dst src n = Ok b' ->
  sb_n b' = sb_n b /\ dst + n <= length (sb_cells b) /\
  forall j, nth_error (sb_cells b') j =
    if (dst <=? j) && (j <? dst + n) then nth_error (sb_cells b) (src + (j - dst)) else nth_error (sb_cells b) j.
Proof.
  unfold move_cells. destruct (src + n <=? sb_cap b) eqn:L1; [|discriminate]. destruct (dst + n <=? sb_cap b) eqn:L2; [|discriminate].
  apply Nat.leb_le in L1, L2. unfold sb_cap in *. cbn [andb]. intros [= <-]. cbn [sb_n sb_cells]. repeat split; auto. intros j.
  assert (D : length (firstn dst (sb_cells b)) = dst) by (rewrite firstn_length; lia).
  assert (E : length (firstn n (skipn src (sb_cells b))) = n) by (rewrite firstn_length, skipn_length; lia).
  destruct (Nat.lt_ge_cases j dst).
  - rewrite nth_error_app1 by lia. rewrite nth_firstn' by lia. rewrite (proj2 (Nat.leb_gt dst j)) by lia. reflexivity.
  - rewrite nth_error_app2 by lia. rewrite D. rewrite (proj2 (Nat.leb_le dst j)) by lia. cbn [andb].
    destruct (Nat.ltb_spec j (dst + n)).
    + rewrite nth_error_app1 by lia. rewrite nth_firstn' by lia. rewrite nth_error_skipn_local. reflexivity.
    + rewrite nth_error_app2 by lia. rewrite E, nth_error_skipn_local. f_equal. lia.
Qed.

Definition op_value (P : value -> Prop) (o : aop) : Prop :=
  match o with APush v | AInsert _ v | ASet _ v | AResize _ v => P v | _ => True end.

Lemma bind_ok {A B} (o : outcome A) (k : A -> outcome B) r : (x <- o ;; k x)%outcome = Ok r -> exists x, o = Ok x /\ k x = Ok r.
Proof. destruct o; cbn; intros E; try discriminate. eauto. Qed.

Lemma index_ok_lt a i : index_ok a i = true -> Z.to_nat i < sb_count a.
Proof. unfold index_ok. intros E. apply andb_prop in E as (A & B). apply Z.leb_le in A. apply Z.ltb_lt in B. lia. Qed.

Lemma resize_loop_call (P : value -> Prop) b base k : forall i v b', resize_loop b base i k v = Ok b' -> P v ->
  call P (base + i) (sb_cells b) -> call P (base + i + k) (sb_cells b') /\ sb_n b' = sb_n b.
Proof.
  revert b. induction k as [|k IH]; intros b i v b' E Pv C; cbn [resize_loop] in E.
  - injection E as <-. rewrite Nat.add_0_r. auto.
  - apply bind_ok in E as (b1 & W & E). destruct (IH b1 (S i) v b' E Pv) as (D & N).
    + intros j x L X. rewrite (proj2 (write_spec _ _ _ _ W)) in X. destruct (Nat.eqb_spec j (base + i)); [injection X as <-; exact Pv|].
      apply (C j x); [lia|exact X].
    + split; [replace (base + i + S k) with (base + S i + k) by lia; exact D|]. rewrite N. apply (write_spec _ _ _ _ W).
Qed.

Lemma step_all (P : value -> Prop) x o x' r : array_step x o = Ok (x', r) -> aall P x -> op_value P o ->
  (forall n v, o = AResize n v -> sb_count x = 0 \/ (n <= Z.of_nat (sb_count x))%Z) ->
  aall P x' /\ forall v, r = RVal v -> P v.
Proof.
  intros E A V G. apply aall_iff in A.
  destruct o as [v| | |i v|i|i v|i|n v| |]; cbn [array_step op_value] in *.
  - (* push *) apply bind_ok in E as (a' & E & X). injection X as <- <-. split; [|discriminate]. apply aall_iff.
    unfold array_push in E. apply bind_ok in E as (b & W & X). injection X as <-. destruct (maybegrow_call P x 1 A) as (C & N).
    intros i w L X. cbn [aall' set_n sb_n sb_cells] in *. destruct (write_spec _ _ _ _ W) as (WN & WS). rewrite WS in X.
    destruct (Nat.eqb_spec i (sb_n (sb_maybegrow x 1))); [injection X as <-; exact V|]. apply (C i w); [lia|exact X].
  - (* pop *) apply bind_ok in E as ((a' & w) & E & X). injection X as <- <-. unfold array_pop in E. destruct x as [b|]; [|discriminate].
    destruct (0 <? sb_n b) eqn:L; [|discriminate]. apply Nat.ltb_lt in L. apply bind_ok in E as (w' & R & X). injection X as <- <-. unfold read_cell in R.
    destruct (nth_error (sb_cells b) (sb_n b - 1)) as [[y|]|] eqn:N; try discriminate. injection R as ->. split.
    + apply aall_iff. intros i u Li. cbn [set_n sb_n sb_cells] in *. apply A. lia.
    + intros u [= <-]. apply (A (sb_n b - 1)); [lia|exact N].
  - (* shift *) apply bind_ok in E as ((a' & w) & E & X). injection X as <- <-. unfold array_shift in E. destruct x as [b|]; [|discriminate].
    destruct (0 <? sb_n b) eqn:L; [|discriminate]. apply Nat.ltb_lt in L. apply bind_ok in E as (w' & R & E). apply bind_ok in E as (b' & Mv & X). injection X as <- <-. unfold read_cell in R.
    destruct (nth_error (sb_cells b) 0) as [[y|]|] eqn:N; try discriminate. injection R as ->. destruct (move_spec _ _ _ _ _ Mv) as (MN & _ & MS). split.
    + apply aall_iff. intros i u Li Eu. cbn [set_n sb_n sb_cells] in *. rewrite MS in Eu. destruct ((0 <=? i) && (i <? 0 + (sb_n b - 1))) eqn:B.
      * apply andb_prop in B as (_ & B). apply Nat.ltb_lt in B. apply (A (1 + (i - 0))); [lia|exact Eu].
      * apply (A i); [lia|exact Eu].
    + intros u [= <-]. apply (A 0); [lia|exact N].
  - (* insert *) apply bind_ok in E as (a' & E & X). injection X as <- <-. split; [|discriminate]. apply aall_iff. unfold array_insert in E.
    destruct (index_ok x i) eqn:IX; [|discriminate]. apply index_ok_lt in IX. unfold sb_add in E. destruct (maybegrow_call P x 1 A) as (C & N).
    apply bind_ok in E as (b1 & Mv & E). apply bind_ok in E as (b2 & W & X). injection X as <-.
    destruct (move_spec _ _ _ _ _ Mv) as (MN & _ & MS). destruct (write_spec _ _ _ _ W) as (WN & WS). cbn [aall' set_n sb_n sb_cells] in *.
    intros j u L Eu. rewrite WS in Eu. destruct (Nat.eqb_spec j (Z.to_nat i)); [injection Eu as <-; exact V|]. rewrite MS in Eu.
    destruct ((S (Z.to_nat i) <=? j) && (j <? S (Z.to_nat i) + (sb_count x - Z.to_nat i))) eqn:B.
    + apply andb_prop in B as (B1 & B2). apply Nat.leb_le in B1. apply Nat.ltb_lt in B2. apply (C (Z.to_nat i + (j - S (Z.to_nat i)))); [lia|exact Eu].
    + assert (j < Z.to_nat i) by (apply andb_false_iff in B as [B|B]; [apply Nat.leb_gt in B; lia|apply Nat.ltb_ge in B; lia]). apply (C j); [lia|exact Eu].
  - (* remove *) apply bind_ok in E as (a' & E & X). injection X as <- <-. split; [|discriminate]. apply aall_iff. unfold array_remove in E.
    destruct (index_ok x i) eqn:IX; [|discriminate]. apply index_ok_lt in IX. destruct x as [b|]; [|discriminate]. apply bind_ok in E as (b1 & Mv & X). injection X as <-.
    destruct (move_spec _ _ _ _ _ Mv) as (MN & _ & MS). cbn [aall' set_n sb_n sb_cells sb_count] in *. intros j u L Eu. rewrite MS in Eu.
    destruct ((Z.to_nat i <=? j) && (j <? Z.to_nat i + (sb_n b - Z.to_nat i - 1))) eqn:B.
    + apply andb_prop in B as (B1 & B2). apply Nat.leb_le in B1. apply Nat.ltb_lt in B2. apply (A (S (Z.to_nat i) + (j - Z.to_nat i))); [lia|exact Eu].
    + apply (A j); [lia|exact Eu].
  - (* set *) apply bind_ok in E as (a' & E & X). injection X as <- <-. split; [|discriminate]. apply aall_iff. unfold array_set in E.
    destruct (index_ok x i) eqn:IX; [|discriminate]. destruct x as [b|]; [|discriminate]. apply bind_ok in E as (b1 & W & X). injection X as <-.
    cbn [aall']. rewrite (proj1 (write_spec _ _ _ _ W)). exact (write_call _ _ _ _ _ _ W V A).
  - (* get *) apply bind_ok in E as (w & E & X). injection X as <- <-. split; [apply aall_iff; exact A|]. intros u [= <-]. unfold array_get in E.
    destruct (index_ok x i) eqn:IX; [|discriminate]. apply index_ok_lt in IX. destruct x as [b|]; [|discriminate]. unfold read_cell in E.
    destruct (nth_error (sb_cells b) (Z.to_nat i)) as [[y|]|] eqn:N; try discriminate. injection E as ->. exact (A _ _ IX N).
  - (* resize *) apply bind_ok in E as (a' & E & X). injection X as <- <-. split; [|discriminate]. apply aall_iff. unfold array_resize in E.
    destruct (n <? 0)%Z eqn:Z0; [discriminate|]. apply Z.ltb_ge in Z0. destruct (Nat.ltb_spec (sb_count x) (Z.to_nat n)) as [L|L].
    + destruct (G n v eq_refl) as [G0|G0]; [|lia]. unfold sb_add in E. destruct (maybegrow_call P x (Z.to_nat n - sb_count x) A) as (C & N).
      apply bind_ok in E as (b' & R & X). injection X as <-. apply (resize_loop_call P) in R; [|exact V|cbn [set_n sb_cells]; intros j u Lj; lia].
      destruct R as (R & RN). cbn [aall' set_n sb_n] in *. rewrite RN. intros j u Lj. apply R. lia.
    + destruct x as [b|]; [|discriminate]. injection E as <-. cbn [aall' set_n sb_n sb_cells sb_count] in *. intros j u Lj. apply A. lia.
  - (* clear *) apply bind_ok in E as (a' & E & X). injection X as <- <-. split; [|discriminate]. apply aall_iff. unfold array_clear in E. destruct x as [b|]; [|discriminate].
    injection E as <-. intros j u Lj. cbn in Lj. lia.
  - (* len *) injection E as <- <-. split; [apply aall_iff; exact A|discriminate].
Qed.

Lemma init_all (P : value -> Prop) vs x : init_array_ex vs = Ok x -> Forall P vs -> aall P x.
Proof.
  intros E F. destruct (init_ex_R vs) as (a & E' & R). rewrite E' in E. injection E as <-. apply aall_iff. destruct a as [b|]; [|exact I].
  destruct R as (_ & N & C). intros i v L X. rewrite N in L. rewrite <- (nth_firstn' _ (length vs) i L), C, nth_error_map in X.
  destruct (nth_error vs i) as [y|] eqn:Y; [|discriminate]. cbn in X. injection X as <-. rewrite Forall_forall in F. apply F. eapply nth_error_In; eauto.
Qed.

Lemma push_all_all (P : value -> Prop) vs : forall x x', push_all x vs = Ok x' -> aall P x -> Forall P vs -> aall P x'.
Proof.
  induction vs as [|v vs IH]; intros x x' E A F; cbn [push_all] in E.
  - injection E as <-. exact A.
  - apply bind_ok in E as (x1 & E1 & E). inversion F; subst. eapply IH; eauto.
    eapply (proj1 (step_all P x (APush v) x1 RUnit _ A _ _)). Unshelve. 2: cbn; assumption. 2: discriminate. cbn [array_step]. rewrite E1. reflexivity.
Qed.

Lemma sort_count_all (P : value -> Prop) x x' : array_sort x = Ok x' -> aall P x -> (forall z, P (VInt z)) -> aall P x'.
Proof.
  unfold array_sort. intros E A Z. destruct (sb_count x <? 2)%nat; [injection E as <-; exact A|]. destruct x as [b|]; [|discriminate].
  apply bind_ok in E as (vs & _ & E). destruct (as_ints vs) as [is|]; [|discriminate]. destruct (comparable is); [|discriminate].
  apply bind_ok in E as (b' & W & X). injection X as <-. apply aall_iff in A. apply aall_iff. cbn [aall'] in *.
  assert (K : forall l b i b', write_cells b i (map VInt l) = Ok b' -> sb_n b' = sb_n b /\ (call P (sb_n b) (sb_cells b) -> call P (sb_n b) (sb_cells b'))).
  { clear -Z. induction l as [|z l IH]; intros b i b' E; cbn [map write_cells] in E; [injection E as <-; auto|].
    apply bind_ok in E as (b1 & W & E). destruct (IH _ _ _ E) as (N & C). destruct (write_spec _ _ _ _ W) as (WN & _). rewrite WN in *. split; [exact N|].
    intros A. apply C. eapply write_call; eauto. }
  destruct (K _ _ _ _ W) as (N & C). rewrite N. auto.
Qed.

Lemma in_array_kids a v : In v (array_kids a) <-> exists i, array_get a (Z.of_nat i) = Ok v.
Proof.
  unfold array_kids. rewrite in_flat_map. split.
  - intros (i & _ & X). exists i. destruct (array_get a (Z.of_nat i)); cbn in X; try contradiction. destruct X as [->|[]]. reflexivity.
  - intros (i & E). exists i. split; [|rewrite E; left; reflexivity]. apply array_get_spec in E as (b & -> & L & _). apply in_seq. cbn. lia.
Qed.

Lemma aall_kids (P : value -> Prop) a : aall P a <-> forall v, In v (array_kids a) -> P v.
Proof.
  split.
  - intros A v (i & E)%in_array_kids. eauto.
  - intros A i v E. apply A. apply in_array_kids. eauto.
Qed.

(** ** Dicts: every key in use and its value satisfy [P] *)
Definition dall (P : value -> Prop) (d : dict) : Prop :=
  forall i k, i < d_buckets d -> dkey d i = Ok k -> is_null k = false -> P k /\ forall v, dval d i = Ok v -> P v.

Lemma array_set_get a i v a' j : array_set a (Z.of_nat i) v = Ok a' ->
  array_get a' (Z.of_nat j) = if j =? i then Ok v else array_get a (Z.of_nat j).
Proof.
  unfold array_set. destruct (index_ok a (Z.of_nat i)) eqn:IX; [|discriminate]. destruct a as [b|]; [|discriminate]. intros E.
  apply bind_ok in E as (b' & W & X). injection X as <-. rewrite Nat2Z.id in W. destruct (write_spec _ _ _ _ W) as (N & S').
  pose proof (index_ok_lt _ _ IX) as L. rewrite Nat2Z.id in L. cbn in L.
  unfold array_get, index_ok. cbn [sb_count]. rewrite N, !Nat2Z.id. unfold read_cell. rewrite S'. destruct (Nat.eqb_spec j i) as [->|D]; [|reflexivity].
  rewrite (proj2 (Z.leb_le 0 (Z.of_nat i))) by lia. rewrite (proj2 (Z.ltb_lt (Z.of_nat i) _)) by lia. reflexivity.
Qed.

Lemma put_key_spec d i k d' : put_key d i k = Ok d' -> d_buckets d' = d_buckets d /\
  (forall j, dkey d' j = if j =? i then Ok k else dkey d j) /\ (forall j, dval d' j = dval d j).
Proof.
  unfold put_key. intros E. apply bind_ok in E as (ks & W & X). injection X as <-. cbn [d_buckets]. repeat split. intros j.
  unfold dkey. cbn [d_keys]. exact (array_set_get _ _ _ _ j W).
Qed.
Lemma put_val_spec d i v d' : put_val d i v = Ok d' -> d_buckets d' = d_buckets d /\
  (forall j, dval d' j = if j =? i then Ok v else dval d j) /\ (forall j, dkey d' j = dkey d j).
Proof.
  unfold put_val. intros E. apply bind_ok in E as (vs & W & X). injection X as <-. cbn [d_buckets]. repeat split. intros j.
  unfold dval. cbn [d_values]. exact (array_set_get _ _ _ _ j W).
Qed.

Section DictAll.
Variable place : nat -> Z.
Variable h : heap.
Variable P : value -> Prop.

Lemma put_null_all d i d' : put_key d i VNull = Ok d' -> dall P d -> dall P d'.
Proof.
  intros E A j k L K N. destruct (put_key_spec _ _ _ _ E) as (B & SK & SV). rewrite B in L. rewrite SK in K. rewrite SV.
  destruct (j =? i); [injection K as <-; discriminate|]. exact (A j k L K N).
Qed.
Lemma put_val_all d i v d' : put_val d i v = Ok d' -> P v -> dall P d -> dall P d'.
Proof.
  intros E Pv A j k L K N. destruct (put_val_spec _ _ _ _ E) as (B & SV & SK). rewrite B in L. rewrite SK in K. destruct (A j k L K N) as (Pk & V).
  split; [exact Pk|]. intros u. rewrite SV. destruct (j =? i); [intros [= <-]; exact Pv|apply V].
Qed.
Lemma filled_all d n : dall P d -> dall P (set_filled d n).
Proof. intros A. exact A. Qed.
Lemma put_both_all d i k v n d1 d2 : put_key d i k = Ok d1 -> put_val (set_filled d1 n) i v = Ok d2 -> P k -> P v -> dall P d -> dall P d2.
Proof.
  intros E1 E2 Pk Pv A j k' L K N. destruct (put_key_spec _ _ _ _ E1) as (B & SK & SV). destruct (put_val_spec _ _ _ _ E2) as (B2 & SV2 & SK2).
  cbn [set_filled d_buckets] in B2. rewrite B2, B in L. rewrite SK2 in K.
  assert (K' : dkey d1 j = Ok k') by exact K. clear K. rewrite SK in K'. assert (X : forall u, dval (set_filled d1 n) u = dval d1 u) by reflexivity.
  setoid_rewrite SV2. destruct (j =? i) eqn:J.
  - injection K' as <-. split; [exact Pk|]. intros u [= <-]. exact Pv.
  - destruct (A j k' L K' N) as (Pk' & V). split; [exact Pk'|]. intros u. rewrite X, SV. apply V.
Qed.

Lemma probe_set_all grow n : (forall d d', grow d = Ok d' -> dall P d -> dall P d') ->
  forall d hash idx origin k v d', probe_set h grow n d hash idx origin k v = Ok d' -> P k -> P v -> dall P d -> dall P d'.
Proof.
  intros G. induction n as [|n IH]; intros d hash idx origin k v d' E Pk Pv A; cbn [probe_set] in E; [discriminate|].
  apply bind_ok in E as (prev & K & E). destruct (is_null prev) eqn:N.
  - apply bind_ok in E as (d1 & E1 & E2). eapply put_both_all; eauto.
  - apply bind_ok in E as ([|] & _ & E).
    + eapply put_val_all; eauto.
    + destruct (_ =? origin).
      * apply bind_ok in E as (d1 & E1 & E). apply bind_ok in E as (i & _ & E). eapply IH; eauto.
      * eapply IH; eauto.
Qed.

Lemma init_n_all n d : init_dict_n n = Ok d -> dall P d.
Proof.
  intros E i k L K N. destruct n as [|n].
  - unfold init_dict_n in E. apply bind_ok in E as (ks & _ & E). apply bind_ok in E as (vs & _ & E). injection E as <-. cbn in L. lia.
  - destruct (init_dict_RT (S n) ltac:(lia)) as (d0 & E0 & R). rewrite E0 in E. injection E as <-.
    rewrite (dkey_RT d0 (repeat empty_slot (S n)) i) in K; [|apply RT_RT'; exact R|].
    + injection K as <-. change (is_null (fst (at_ (repeat empty_slot (S n)) i)) = false) in N. rewrite repeat_at in N. discriminate.
    + destruct R as (B & _). rewrite B in L. exact L.
Qed.

Lemma grow_loop_all set d n : (forall d k v d', set d k v = Ok d' -> P k -> P v -> dall P d -> dall P d') -> dall P d ->
  forall nd i d', i + n <= d_buckets d -> grow_loop set d nd i n = Ok d' -> dall P nd -> dall P d'.
Proof.
  intros S' A. induction n as [|n IH]; intros nd i d' L E B; cbn [grow_loop] in E; [injection E as <-; exact B|].
  apply bind_ok in E as (k & K & E). apply bind_ok in E as (nd' & E1 & E). apply (IH nd' (S i) d'); [lia|exact E|]. destruct (is_null k) eqn:N; [injection E1 as <-; exact B|].
  apply bind_ok in E1 as (v & V & E1). destruct (A i k ltac:(lia) K N) as (Pk & Pv). eapply S'; eauto.
Qed.

Lemma grow_all set d d' : (forall d k v d', set d k v = Ok d' -> P k -> P v -> dall P d -> dall P d') ->
  grow_with set d = Ok d' -> dall P d -> dall P d'.
Proof.
  intros S' E A. unfold grow_with in E. apply bind_ok in E as (nd & I0 & E). apply (grow_loop_all set d (d_buckets d) S' A nd 0 d'); [lia|exact E|]. eapply init_n_all; eauto.
Qed.

Lemma dict_set_f_all f : forall d k v d', dict_set_f place h f d k v = Ok d' -> P k -> P v -> dall P d -> dall P d'.
Proof.
  induction f as [|f IH]; intros d k v d' E Pk Pv A; cbn [dict_set_f] in E; [discriminate|].
  apply bind_ok in E as (d1 & E1 & E). apply bind_ok in E as (hash & _ & E). apply bind_ok in E as (i & _ & E).
  eapply probe_set_all; [|exact E|exact Pk|exact Pv|].
  - intros e e' G. eapply grow_all; eauto.
  - destruct (d_buckets d / 2 <=? d_filled d); [eapply grow_all; eauto|injection E1 as <-; exact A].
Qed.
Lemma dict_set_all d k v d' : dict_set place h d k v = Ok d' -> P k -> P v -> dall P d -> dall P d'.
Proof. apply dict_set_f_all. Qed.

Lemma grow_loop_buckets set d n : forall nd i d', grow_loop set d nd i n = Ok d' -> (forall d k v d', set d k v = Ok d' -> d_buckets d <= d_buckets d') ->
  d_buckets nd <= d_buckets d'.
Proof.
  induction n as [|n IH]; intros nd i d' E S'; cbn [grow_loop] in E; [injection E as <-; auto|].
  apply bind_ok in E as (k & _ & E). apply bind_ok in E as (nd' & E1 & E). specialize (IH _ _ _ E S'). destruct (is_null k); [injection E1 as <-; exact IH|].
  apply bind_ok in E1 as (v & _ & E1). apply S' in E1. lia.
Qed.

Lemma home_lt d hash i : home d hash = Ok i -> i < d_buckets d.
Proof.
  unfold home. destruct (Nat.eqb_spec (d_buckets d) 0) as [|N]; [discriminate|]. intros [= <-].
  pose proof (Z.mod_pos_bound hash (Z.of_nat (d_buckets d)) ltac:(lia)). lia.
Qed.

Lemma probe_set_buckets grow n : (forall d d', grow d = Ok d' -> d_buckets d <= d_buckets d') ->
  forall d hash idx origin k v d', probe_set h grow n d hash idx origin k v = Ok d' -> d_buckets d <= d_buckets d'.
Proof.
  intros G. induction n as [|n IH]; intros d hash idx origin k v d' E; cbn [probe_set] in E; [discriminate|].
  apply bind_ok in E as (prev & K & E). destruct (is_null prev) eqn:N.
  - apply bind_ok in E as (d1 & E1 & E2). apply put_key_spec in E1 as (B1 & _). apply put_val_spec in E2 as (B2 & _). cbn [set_filled d_buckets] in B2. lia.
  - apply bind_ok in E as ([|] & _ & E).
    + apply put_val_spec in E as (B & _). lia.
    + destruct (_ =? origin).
      * apply bind_ok in E as (d1 & E1 & E). apply bind_ok in E as (i & _ & E). apply IH in E. apply G in E1. lia.
      * eapply IH; eauto.
Qed.

Lemma dict_set_f_buckets f : forall d k v d', dict_set_f place h f d k v = Ok d' -> d_buckets d <= d_buckets d'.
Proof.
  induction f as [|f IH]; intros d k v d' E; cbn [dict_set_f] in E; [discriminate|].
  assert (G : forall d d', grow_with (dict_set_f place h f) d = Ok d' -> d_buckets d <= d_buckets d').
  { intros e e' G. unfold grow_with in G. apply bind_ok in G as (nd & I0 & G). apply grow_loop_buckets in G; [|exact IH].
    unfold init_dict_n in I0. apply bind_ok in I0 as (ks & _ & I0). apply bind_ok in I0 as (vs & _ & I0). injection I0 as <-. cbn [d_buckets] in G. lia. }
  apply bind_ok in E as (d1 & E1 & E). apply bind_ok in E as (hash & _ & E). apply bind_ok in E as (i & _ & E).
  apply probe_set_buckets in E; [|exact G]. destruct (d_buckets d / 2 <=? d_filled d); [apply G in E1; lia|injection E1 as <-; exact E].
Qed.

Lemma remove_loop_all n : forall d idx k d', idx < d_buckets d -> remove_loop place h n d idx k = Ok d' -> dall P d -> dall P d'.
Proof.
  induction n as [|n IH]; intros d idx k d' L E A; cbn [remove_loop] in E; [discriminate|].
  apply bind_ok in E as (here & K & E). destruct (is_null here) eqn:N; [injection E as <-; exact A|].
  apply bind_ok in E as (eq & _ & E). apply bind_ok in E as (d1 & E1 & E).
  assert (X : dall P d1 /\ d_buckets d <= d_buckets d1).
  { destruct eq.
    - apply bind_ok in E1 as (d2 & E2 & X). injection X as <-. split; [apply filled_all; eapply put_null_all; eauto|]. apply put_key_spec in E2 as (B & _). cbn. lia.
    - apply bind_ok in E1 as (hh & _ & E1). apply bind_ok in E1 as (hm & _ & E1). destruct (hm =? idx); [injection E1 as <-; auto|].
      apply bind_ok in E1 as (v & V & E1). apply bind_ok in E1 as (d2 & E2 & E1). destruct (A idx here L K N) as (Pk & Pv). split.
      + eapply dict_set_all; [exact E1|exact Pk|apply Pv; exact V|]. apply filled_all. eapply put_null_all; eauto.
      + apply dict_set_f_buckets in E1. apply put_key_spec in E2 as (B & _). cbn [set_filled d_buckets] in E1. lia. }
  destruct X as (A1 & B1). eapply (IH d1); [|exact E|exact A1]. apply Nat.mod_upper_bound. lia.
Qed.

Lemma clear_loop_all n : P VNull -> forall d i d', clear_loop d i n = Ok d' -> dall P d -> dall P d'.
Proof.
  intros PN. induction n as [|n IH]; intros d i d' E A; cbn [clear_loop] in E; [injection E as <-; exact A|].
  apply bind_ok in E as (d1 & E1 & E). apply bind_ok in E as (d2 & E2 & E). eapply IH; [exact E|]. eapply put_val_all; eauto. eapply put_null_all; eauto.
Qed.

Lemma get_loop_all n : forall d idx origin k v, get_loop h n d idx origin k = Ok (Some v) -> idx < d_buckets d -> dall P d -> P v.
Proof.
  induction n as [|n IH]; intros d idx origin k v E L A; cbn [get_loop] in E; [discriminate|].
  apply bind_ok in E as (here & K & E). destruct (is_null here) eqn:N; [discriminate|]. apply bind_ok in E as ([|] & _ & E).
  - apply bind_ok in E as (u & V & X). injection X as <-. destruct (A idx here L K N) as (_ & Pv). auto.
  - destruct (_ =? origin); [discriminate|]. eapply IH; [exact E| |exact A]. apply Nat.mod_upper_bound. lia.
Qed.

Lemma dict_step_all d o d' r : dict_step place h d o = Ok (d', r) -> P VNull ->
  match o with DSet k v => P k /\ P v | _ => True end -> dall P d ->
  dall P d' /\ forall v, r = DFound v -> P v.
Proof.
  intros E PN V A. destruct o as [k v|k|k|]; cbn [dict_step] in E.
  - apply bind_ok in E as (d1 & E & X). injection X as <- <-. split; [|discriminate]. eapply dict_set_all; eauto; tauto.
  - apply bind_ok in E as (o & E & X). injection X as <- <-. split; [exact A|]. intros v. destruct o as [u|]; [|discriminate]. intros [= <-].
    unfold dict_get in E. apply bind_ok in E as (hh & _ & E). apply bind_ok in E as (i & Hi & E). eapply get_loop_all; eauto. eapply home_lt; eauto.
  - apply bind_ok in E as (d1 & E & X). injection X as <- <-. split; [|discriminate]. unfold dict_remove in E. apply bind_ok in E as (hh & _ & E). apply bind_ok in E as (i & Hi & E).
    eapply remove_loop_all; [|exact E|exact A]. eapply home_lt; eauto.
  - apply bind_ok in E as (d1 & E & X). injection X as <- <-. split; [|discriminate]. unfold dict_clear in E. apply bind_ok in E as (d2 & E & X). injection X as <-.
    apply filled_all. eapply clear_loop_all; eauto.
Qed.

Lemma enum_all n : forall d i l, enum_loop d i n = Ok l -> i + n <= d_buckets d -> dall P d -> Forall (fun e => P (fst e) /\ P (snd e)) l.
Proof.
  induction n as [|n IH]; intros d i l E L A; cbn [enum_loop] in E; [injection E as <-; constructor|].
  apply bind_ok in E as (k & K & E). destruct (is_null k) eqn:N; [eapply IH; [exact E|lia|exact A]|].
  apply bind_ok in E as (v & V & E). apply bind_ok in E as (r & E & X). injection X as <-. destruct (A i k ltac:(lia) K N) as (Pk & Pv).
  constructor; [split; auto|]. eapply IH; [exact E|lia|exact A].
Qed.

Lemma set_pairs_all l : forall d d', set_pairs place h d l = Ok d' -> Forall (fun e => P (fst e) /\ P (snd e)) l -> dall P d -> dall P d'.
Proof.
  induction l as [|(k & v) l IH]; intros d d' E F A; cbn [set_pairs] in E; [injection E as <-; exact A|].
  apply bind_ok in E as (d1 & E1 & E). inversion F as [|? ? (F1 & F2) F3]; subst. eapply IH; eauto. eapply dict_set_all; eauto.
Qed.
End DictAll.

Lemma in_dict_kids d v : In v (dict_kids d) <->
  exists i k, i < d_buckets d /\ dkey d i = Ok k /\ is_null k = false /\ (v = k \/ dval d i = Ok v).
Proof.
  unfold dict_kids. rewrite in_flat_map. split.
  - intros (i & L & X). apply in_seq in L. destruct (dkey d i) as [k| | |] eqn:K; try contradiction X. destruct (is_null k) eqn:N; [contradiction X|].
    exists i, k. repeat split; auto; [lia|]. destruct X as [->|X]; [auto|]. destruct (dval d i); try contradiction X. destruct X as [->|[]]. auto.
  - intros (i & k & L & K & N & X). exists i. split; [apply in_seq; lia|]. rewrite K, N. destruct X as [->|X]; [left; reflexivity|]. rewrite X. right. left. reflexivity.
Qed.
Lemma dall_kids (P : value -> Prop) d : dall P d <-> forall v, In v (dict_kids d) -> P v.
Proof.
  split.
  - intros A v (i & k & L & K & N & X)%in_dict_kids. destruct (A i k L K N) as (Pk & Pv). destruct X as [->|X]; auto.
  - intros A i k L K N. split; [|intros v V]; apply A; apply in_dict_kids; exists i, k; auto.
Qed.
Lemma keys_are_kids d k : In k (dict_keys_of d) -> In k (dict_kids d).
Proof.
  unfold dict_keys_of. rewrite in_flat_map. intros (i & L & X). apply in_seq in L. destruct (dkey d i) as [k'| | |] eqn:K; try contradiction X.
  destruct (is_null k') eqn:N; [contradiction X|]. destruct X as [->|[]]. apply in_dict_kids. exists i, k. repeat split; auto. lia.
Qed.

(** ** The library's functions *)
Lemma cell_set w a c b : cell_at w a <> None -> cell_at (set_cell w a c) b = if (b =? a)%Z then Some c else cell_at w b.
Proof.
  unfold cell_at, set_cell. intros N. destruct (Z.leb_spec a 0); [contradiction N; reflexivity|].
  assert (L : Z.to_nat a - 1 < length w) by (apply nth_error_Some; exact N).
  destruct (Z.eqb_spec b a) as [->|D].
  - rewrite (proj2 (Z.leb_gt a 0)) by lia. apply nth_error_update_eq. exact L.
  - destruct (Z.leb_spec b 0); [reflexivity|]. apply nth_error_update_ne. lia.
Qed.

Lemma cell_new w c b : cell_at (w ++ [c]) b = if (b =? Z.of_nat (S (length w)))%Z then Some c else cell_at w b.
Proof.
  unfold cell_at. destruct (Z.leb_spec b 0).
  - destruct (Z.eqb_spec b (Z.of_nat (S (length w)))); [lia|reflexivity].
  - destruct (Z.eqb_spec b (Z.of_nat (S (length w)))) as [->|D].
    + rewrite nth_error_app2 by lia. replace (Z.to_nat (Z.of_nat (S (length w))) - 1 - length w) with 0 by lia. reflexivity.
    + destruct (Nat.lt_ge_cases (Z.to_nat b - 1) (length w)).
      * apply nth_error_app1. lia.
      * rewrite (proj2 (nth_error_None w _)) by lia. apply nth_error_None. rewrite app_length. cbn. lia.
Qed.

(** What block [c] shows under property [p] *)
Definition cell_kids (p : nat) (c : cell) : list value :=
  match p, c with 1, CArr x => array_kids x | 3, CDict d => dict_kids d | _, _ => [] end.
Lemma children_cell p w a : n_children lib_natives p w a = match cell_at w a with Some c => cell_kids p c | None => [] end.
Proof.
  cbn [n_children lib_natives]. destruct p as [|[|[|[|p]]]]; destruct (cell_at w a) as [[x|d]|]; reflexivity.
Qed.

Section Respects.
Variable M : machine store.
Hypothesis NM : m_natives M = lib_natives.
Notation resp := (respects M).

Lemma resp_arg w args K r l i k : (forall v, nth_error l i = Some v -> resp w args K r (k v)) -> resp w args K r (arg l i k).
Proof. unfold arg. destruct (nth_error l i); [auto|]. intros _. constructor. Qed.
Lemma resp_attempt {A} w args K r (o : outcome A) k : (forall a, o = Ok a -> resp w args K r (k a)) -> resp w args K r (attempt o k).
Proof. unfold attempt. destruct o; [auto| | |]; intros _; constructor. Qed.

Lemma resp_with_array w args K r v k : In v K ->
  (forall p a x, p = 1 \/ p = 2 -> cell_at w a = Some (CArr x) -> resp w args (cell_kids p (CArr x) ++ K) r (k p a x w)) ->
  resp w args K r (with_array v k).
Proof.
  intros I0 A. destruct v; try constructor. exact I0. intros [s|a p|fs]; try constructor.
  destruct ((p =? 1) || (p =? 2)) eqn:P; [|constructor]. constructor. destruct (cell_at w a) as [[x|d]|] eqn:C; try constructor.
  assert (PP : p = 1 \/ p = 2) by (apply orb_prop in P as [P|P]; apply Nat.eqb_eq in P; auto).
  specialize (A p a x PP C). unfold kids. rewrite NM, children_cell, C. destruct (Nat.eqb_spec p 0); [lia|exact A].
Qed.

Lemma resp_set_cell w args K r a c c' k : cell_at w a = Some c ->
  (forall p v, In v (cell_kids p c') -> ref_of v = None \/ In v K \/ In v (cell_kids p c)) ->
  resp (set_cell w a c') args K r k -> resp w args K r (FSetHost (set_cell w a c') k).
Proof.
  intros C A R. constructor; [|exact R]. intros p b v. rewrite NM, !children_cell, cell_set by congruence.
  destruct (Z.eqb_spec b a) as [->|D]; [rewrite C; apply A|]. auto.
Qed.

Lemma resp_answer w args K r p x o : (forall v, o = RVal v -> p = 1 -> ref_of v = None \/ In v (array_kids x ++ K)) -> p = 1 \/ p = 2 ->
  resp w args (cell_kids p (CArr x) ++ K) r (answer true p o).
Proof.
  intros A P. destruct o as [|v|n]; cbn [answer].
  - constructor. intros u [<-|[]]. auto.
  - destruct P as [-> | ->]; cbn [andb Nat.eqb].
    + constructor. intros u [<-|[]]. apply A; auto.
    + destruct (ref_of v) eqn:R; constructor. intros u [<-|[]]. auto.
  - constructor. intros u [<-|[]]. auto.
Qed.

Lemma resp_array_call w args K r o : incl args K -> op_value (fun u => ref_of u = None \/ In u K) o ->
  resp w args K r (array_call true args o).
Proof.
  intros IK V. unfold array_call. apply resp_arg. intros v E. apply nth_error_In in E. apply resp_with_array; [auto|].
  intros p a x P C. cbn [andb]. destruct (grows_used x o) eqn:G; [constructor|]. apply resp_attempt. intros (x' & r0) S'.
  set (Q := fun u => ref_of u = None \/ In u K \/ In u (array_kids x)).
  destruct (step_all Q x o x' r0 S') as (A & Rv).
  - apply aall_kids. unfold Q. auto.
  - unfold Q. destruct o; cbn [op_value] in *; tauto.
  - intros n u ->. cbn [grows_used] in G. apply andb_false_iff in G as [G|G]; [apply Nat.ltb_ge in G|apply Z.ltb_ge in G]; lia.
  - eapply resp_set_cell; [exact C| |].
    + intros p' u H. destruct p' as [|[|[|[|p']]]]; cbn [cell_kids] in *; try contradiction H.
      pose proof (proj1 (aall_kids Q x') A u H) as [Y|[Y|Y]]; auto. right. left. apply in_or_app. auto.
    + apply resp_answer; [|exact P]. intros u -> _. destruct (Rv u eq_refl) as [Y|[Y|Y]]; auto; right; apply in_or_app; auto.
Qed.

Lemma resp_new_box w args K r c p : (forall p v, In v (cell_kids p c) -> ref_of v = None \/ In v K) ->
  resp w args K r (new_box c p).
Proof.
  intros A. unfold new_box. apply rs_host. apply rs_set.
  - intros q b v. rewrite NM,  !children_cell, cell_new. destruct (Z.eqb_spec b (Z.of_nat (S (length w)))) as [->|D]; [|auto].
    intros H. destruct (A q v H); auto.
  - apply rs_nat.
    + intros v. unfold kids. destruct (p =? 0) eqn:P; [intros []|]. rewrite NM, children_cell, cell_new, Z.eqb_refl. apply A.
    + intros id. constructor. intros v [<-|[]]. right. left. reflexivity.
Qed.

Lemma resp_with_dict w args K r v k : In v K ->
  (forall a d, cell_at w a = Some (CDict d) -> resp w args (dict_kids d ++ K) r (k a d w)) ->
  resp w args K r (with_dict v k).
Proof.
  intros I0 A. destruct v; try constructor. exact I0. intros [s|a p|fs]; try constructor.
  destruct (Nat.eqb_spec p 3) as [->|]; [|constructor]. constructor. destruct (cell_at w a) as [[x|d]|] eqn:C; try constructor.
  specialize (A a d C). unfold kids. rewrite NM, children_cell, C. exact A.
Qed.

Lemma resp_with_objects w args r vs : forall K h k, incl vs K ->
  (forall h' K', incl K K' -> resp w args K' r (k h')) -> resp w args K r (with_objects vs h k).
Proof.
  induction vs as [|v vs IH]; intros K h k I0 A; cbn [with_objects]; [apply A, incl_refl|].
  assert (I1 : incl vs K) by (intros x X; apply I0; right; exact X). assert (I2 : In v K) by (apply I0; left; reflexivity).
  destruct v; try (apply IH; auto; fail).
  all: constructor; [exact I2|]; intros b; apply IH; [intros x X; apply in_or_app; right; auto|];
    intros h' K' I3; apply A; intros x X; apply I3; apply in_or_app; right; exact X.
Qed.

Variable place : nat -> Z.

Lemma resp_dict_call w args K r o k : incl args K ->
  (forall v, In v (op_keys o) -> In v args) -> (match o with DSet _ v => In v args | _ => True end) ->
  (forall w' d K', incl K K' -> incl (dict_kids d) K' -> forall res, (forall v, res = DFound v -> ref_of v = None \/ In v K') -> resp w' args K' r (k res)) ->
  resp w args K r (dict_call place args o k).
Proof.
  intros IK KO VO A. unfold dict_call. apply resp_arg. intros v E. apply nth_error_In in E. apply resp_with_dict; [auto|].
  intros a d C. apply resp_with_objects.
  - intros x X. apply in_app_or in X as [X|X]; apply in_or_app; [right; auto|left; apply keys_are_kids; exact X].
  - intros h K' I1. apply resp_attempt. intros (d' & res) S'.
    set (Q := fun u => ref_of u = None \/ In u K').
    assert (IA : forall u, In u args -> In u K') by (intros u U; apply I1; apply in_or_app; auto).
    destruct (dict_step_all place h Q d o d' res S') as (D & Rv).
    + left. reflexivity.
    + unfold Q. destruct o; auto. split; right; apply IA; auto. apply KO. left. reflexivity.
    + apply dall_kids. intros u U. right. apply I1. apply in_or_app. auto.
    + eapply resp_set_cell; [exact C| |].
      * intros p u H. destruct p as [|[|[|[|p]]]]; cbn [cell_kids] in *; try contradiction H.
        destruct (proj1 (dall_kids Q d') D u H); auto.
      * apply (A _ d K'); [intros u U; apply I1; apply in_or_app; auto|intros u U; apply I1; apply in_or_app; auto|]. intros u ->. exact (Rv u eq_refl).
Qed.

Lemma pairs_all args l : pairs_of args = Some l -> Forall (fun e => In (fst e) args /\ In (snd e) args) l.
Proof.
  revert l. induction args as [args IH] using (induction_ltof1 _ (@length value)). unfold ltof in IH.
  destruct args as [|k [|v args]]; intros l E; cbn [pairs_of] in E.
  - injection E as <-. constructor.
  - discriminate.
  - destruct (pairs_of args) as [l'|] eqn:E'; [|discriminate]. injection E as <-. constructor; [cbn; auto|].
    assert (X := IH args ltac:(cbn; lia) l' E'). eapply Forall_impl; [|exact X]. intros e (A & B). cbn. auto.
Qed.

Lemma resp_lib fn w args : In fn (lib_functions true place) -> resp w args args true (fn args).
Proof.
  intros I0.
  assert (AC : forall o, op_value (fun u => ref_of u = None \/ In u args) o -> resp w args args true (array_call true args o)).
  { intros o V. apply resp_array_call; [apply incl_refl|exact V]. }
  assert (NT : forall i v, nth_error args i = Some v -> In v args) by (intros i v; apply nth_error_In).
  assert (KN : forall l r, resp w l args r (FRet VNull)) by (intros l r; constructor; intros u [<-|[]]; auto).
  assert (CA : forall p, resp w args args true (attempt (init_array_ex args) (fun x => new_box (CArr x) p))).
  { intros p. apply resp_attempt. intros x E. apply resp_new_box. intros q v H. destruct q as [|[|[|[|q]]]]; cbn [cell_kids] in H; try contradiction H.
    right. revert v H. apply aall_kids. eapply init_all; [exact E|]. apply Forall_forall. auto. }
  assert (DL : forall pick, (pick = fst \/ pick = snd) -> resp w args args true (dict_list args pick)).
  { intros pick Pk. unfold dict_list. apply resp_arg. intros v E. apply resp_with_dict; [eauto|]. intros a d C. apply resp_attempt. intros x E'.
    apply bind_ok in E' as (l & El & Ex). apply resp_new_box. intros q u H. destruct q as [|[|[|[|q]]]]; cbn [cell_kids] in H; try contradiction H.
    right. apply in_or_app. left. revert u H. apply aall_kids. eapply push_all_all; [exact Ex| |].
    - intros i u U. apply array_get_spec in U as (b & [=] & _).
    - unfold dict_enum in El. eapply enum_all in El; [|lia|]. 2:{ apply (proj2 (dall_kids (fun u => In u (dict_kids d)) d)). auto. }
      apply Forall_forall. intros u U. apply in_map_iff in U as (e & <- & Ie). rewrite Forall_forall in El. destruct (El e Ie) as (A & B). destruct Pk as [-> | ->]; auto. }
  unfold lib_functions in I0. repeat (destruct I0 as [<-|I0]); try contradiction I0.
  - apply CA.
  - apply CA.
  - apply AC. exact I.
  - apply AC. exact I.
  - apply resp_arg. intros v E. apply AC. right. eauto.
  - apply resp_arg. intros v E. apply AC. exact I.
  - apply resp_arg. intros v E. apply resp_arg. intros v' E'. apply AC. right. eauto.
  - apply AC. exact I.
  - apply AC. exact I.
  - apply resp_arg. intros v E. apply AC. exact I.
  - apply resp_arg. intros v E. apply resp_arg. intros v' E'. apply AC. right. eauto.
  - apply resp_arg. intros v E. apply resp_attempt. intros n _. apply AC. left. reflexivity.
  - apply resp_arg. intros v E. apply resp_arg. intros v' E'. apply resp_attempt. intros n _. apply AC. right. eauto.
  - (* sort *) apply resp_arg. intros v E. apply resp_with_array; [eauto|]. intros p a x P C. apply resp_attempt. intros x' S'.
    eapply resp_set_cell; [exact C| |constructor; intros u [<-|[]]; auto].
    intros q u H. destruct q as [|[|[|[|q]]]]; cbn [cell_kids] in *; try contradiction H.
    set (Q := fun u => ref_of u = None \/ In u (array_kids x)).
    pose proof (sort_count_all Q x x' S' (proj2 (aall_kids Q x) (fun u X => or_intror X)) (fun z => or_introl eq_refl)) as A.
    destruct (proj1 (aall_kids Q x') A u H); auto.
  - (* dict(...) *) unfold create_dict. destruct (pairs_of args) as [l|] eqn:PA; [|constructor]. pose proof (pairs_all _ _ PA) as F. rewrite Forall_forall in F.
    apply resp_with_objects.
    + intros x X. apply in_map_iff in X as (e & <- & Ie). apply F. exact Ie.
    + intros h K' I1. apply resp_attempt. intros d E. apply bind_ok in E as (d0 & E0 & E). apply resp_new_box. intros q u H.
      destruct q as [|[|[|[|q]]]]; cbn [cell_kids] in H; try contradiction H. right. revert u H. apply (proj1 (dall_kids (fun u => In u K') d)).
      eapply set_pairs_all; [exact E| |eapply init_n_all; exact E0]. apply Forall_forall. intros e Ie. destruct (F e Ie). auto.
  - apply resp_arg. intros k Ek. apply resp_arg. intros v Ev. apply resp_dict_call; [apply incl_refl|intros u [<-|[]]; eauto|cbn; eauto|].
    intros. constructor. intros u [<-|[]]. auto.
  - apply resp_arg. intros k Ek. apply resp_dict_call; [apply incl_refl|intros u [<-|[]]; eauto|exact I|].
    intros. constructor. intros u [<-|[]]. auto.
  - apply resp_arg. intros k Ek. apply resp_dict_call; [apply incl_refl|intros u [<-|[]]; eauto|exact I|].
    intros w' d K' _ _ res R. constructor. intros u [<-|[]]. destruct res; auto.
  - apply resp_arg. intros k Ek. apply resp_dict_call; [apply incl_refl|intros u [<-|[]]; eauto|exact I|].
    intros. constructor. intros u [<-|[]]. auto.
  - apply resp_dict_call; [apply incl_refl|intros u []|exact I|].
    intros. constructor. intros u [<-|[]]. auto.
  - apply DL. auto.
  - apply DL. auto.
Qed.
End Respects.
