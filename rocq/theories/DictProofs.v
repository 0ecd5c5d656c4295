From Verif Require Import Base Float64 Values ValuesSpec ValuesProofs Array ArraySpec ArrayProofs Dict DictSpec.
From Coq Require Import Permutation.
Local Open Scope nat_scope.

Local Notation slot := (value * value)%type.
Definition empty_slot : slot := (VNull, VNull).
Definition at_ (T : list slot) (i : nat) : slot := nth i T empty_slot.
Definition key (T : list slot) (i : nat) : value := fst (at_ T i).
Definition nn (T : list slot) (i : nat) : Prop := is_null (key T i) = false.
Definition entries (T : list slot) : list slot := filter (fun e => negb (is_null (fst e))) T.

Lemma update_split {A} (l : list A) i x :
  i < length l -> update l i x = firstn i l ++ x :: skipn (S i) l.
Proof.
  revert l; induction i as [|i IH]; intros [|y l] H; simpl in *; try lia; [reflexivity|].
  unfold update in *. simpl. f_equal. apply IH. lia.
Qed.

Lemma at_update_eq T i x : i < length T -> at_ (update T i x) i = x.
Proof.
  intros H. unfold at_. apply nth_error_nth. apply nth_error_update_eq. exact H.
Qed.

Lemma at_update_ne T i j x : i <> j -> at_ (update T i x) j = at_ T j.
Proof.
  intros H. unfold at_. pose proof (nth_error_update_ne T i j x H) as E.
  destruct (nth_error T j) eqn:E1.
  - rewrite (nth_error_nth _ _ _ E1). apply nth_error_nth. rewrite E. reflexivity.
  - apply nth_error_None in E1. rewrite !nth_overflow; auto. rewrite update_length. auto.
Qed.

Lemma entries_app A B : entries (A ++ B) = entries A ++ entries B.
Proof. apply filter_app. Qed.

Definition ent1 (x : slot) : list slot := if is_null (fst x) then [] else [x].

Lemma entries_cons x T : entries (x :: T) = ent1 x ++ entries T.
Proof. unfold entries, ent1. simpl. destruct (is_null (fst x)); reflexivity. Qed.

Lemma split_at (T : list slot) i : i < length T ->
  T = firstn i T ++ at_ T i :: skipn (S i) T.
Proof.
  revert T; induction i as [|i IH]; intros [|y T] H; simpl in *; try lia; [reflexivity|].
  f_equal. apply IH. lia.
Qed.

Lemma entries_update T i x : i < length T ->
  Permutation (ent1 (at_ T i) ++ entries (update T i x)) (ent1 x ++ entries T).
Proof.
  intros H. rewrite update_split by exact H.
  rewrite (split_at T i H) at 4. rewrite !entries_app, !entries_cons.
  set (A := entries (firstn i T)). set (B := entries (skipn (S i) T)).
  rewrite !app_assoc.
  rewrite (Permutation_app_comm (ent1 (at_ T i)) A).
  rewrite (Permutation_app_comm (ent1 x) A).
  rewrite <- !app_assoc. apply Permutation_app_head.
  rewrite !app_assoc. apply Permutation_app_tail. apply Permutation_app_comm.
Qed.

Lemma in_entries T e : In e (entries T) <-> exists i, i < length T /\ at_ T i = e /\ nn T i.
Proof.
  unfold entries. rewrite filter_In. split.
  - intros [H1 H2]. apply (In_nth _ _ empty_slot) in H1 as (i & Hi & E).
    exists i. unfold nn, key, at_. rewrite E. apply negb_true_iff in H2. auto.
  - intros (i & Hi & E & N). subst e. split; [apply nth_In; exact Hi|].
    apply negb_true_iff. exact N.
Qed.

Lemma least_below (Q : nat -> bool) n : (exists i, i < n /\ Q i = true) ->
  exists d, d < n /\ Q d = true /\ forall e, e < d -> Q e = false.
Proof.
  induction n as [|n IH]; intros (i & Hi & Q1); [lia|].
  destruct (existsb Q (seq 0 n)) eqn:E.
  - apply existsb_exists in E as (j & Hj & Qj). apply in_seq in Hj.
    destruct IH as (d & Hd & Qd & L); [exists j; split; [lia|exact Qj]|].
    exists d. repeat split; auto; lia.
  - assert (F : forall e, e < n -> Q e = false).
    { intros e He. destruct (Q e) eqn:Qe; [|reflexivity]. exfalso.
      assert (X : existsb Q (seq 0 n) = true); [|congruence].
      apply existsb_exists. exists e. split; [apply in_seq; lia|exact Qe]. }
    exists n. destruct (Nat.eq_dec i n) as [->|Ne].
    + repeat split; auto.
    + rewrite F in Q1 by lia. discriminate.
Qed.

Section Tab.
Variable eqb : value -> value -> bool.
Variable hash : value -> Z.
Variable P : value -> Prop.
Hypothesis eqb_sym : forall a b, P a -> P b -> eqb a b = eqb b a.
Hypothesis eqb_trans : forall a b c, P a -> P b -> P c ->
  eqb a b = true -> eqb b c = true -> eqb a c = true.
Hypothesis eqb_refl : forall a, P a -> eqb a a = true.
Hypothesis eqb_hash : forall a b, P a -> P b -> eqb a b = true -> hash a = hash b.
Hypothesis P_nn : forall a, P a -> is_null a = false.

Definition hm (n : nat) (k : value) : nat := Z.to_nat (hash k mod Z.of_nat n).

Lemma hm_lt n k : 0 < n -> hm n k < n.
Proof.
  intros H. unfold hm. pose proof (Z.mod_pos_bound (hash k) (Z.of_nat n) ltac:(lia)). lia.
Qed.

Definition goodkeys (T : list slot) : Prop := forall i, nn T i -> P (key T i).

Definition uniq (T : list slot) : Prop :=
  forall i j, i < length T -> j < length T -> nn T i -> nn T j ->
    eqb (key T i) (key T j) = true -> i = j.

Definition pos (n : nat) (k : value) (d : nat) : nat := (hm n k + d) mod n.

Definition chain (T : list slot) (i : nat) : Prop :=
  exists d, d < length T /\ pos (length T) (key T i) d = i /\
    forall e, e < d -> nn T (pos (length T) (key T i) e).

Record Inv (T : list slot) : Prop := {
  inv_pos : 0 < length T;
  inv_good : goodkeys T;
  inv_uniq : uniq T;
  inv_chain : forall i, i < length T -> nn T i -> chain T i;
  inv_load : 2 * length (entries T) <= length T
}.

Lemma nn_lt T i : nn T i -> i < length T.
Proof.
  intros H. destruct (Nat.lt_ge_cases i (length T)) as [L|G]; [exact L|].
  unfold nn, key, at_ in H. rewrite nth_overflow in H by exact G. discriminate.
Qed.

Lemma pos_lt n k d : 0 < n -> pos n k d < n.
Proof. intros H. apply Nat.mod_upper_bound. lia. Qed.

Lemma exists_null T : length (entries T) < length T ->
  exists z, z < length T /\ is_null (key T z) = true.
Proof.
  intros H. destruct (existsb (fun e => is_null (fst e)) T) eqn:E.
  - apply existsb_exists in E as (e & He & Ne). apply (In_nth _ _ empty_slot) in He as (i & Hi & Ei).
    exists i. split; [exact Hi|]. unfold key, at_. rewrite Ei. exact Ne.
  - exfalso. assert (H0 : entries T = T); [|rewrite H0 in H; lia].
    clear H. induction T as [|x T IH]; [reflexivity|]. simpl in E. apply orb_false_elim in E as [E1 E2].
    unfold entries in *. simpl. rewrite E1. simpl. rewrite (IH E2). reflexivity.
Qed.

Lemma pos_surj n k z : 0 < n -> z < n -> exists d, d < n /\ pos n k d = z.
Proof.
  intros Hn Hz. pose proof (hm_lt n k Hn) as Hh. unfold pos.
  destruct (Nat.le_gt_cases (hm n k) z) as [L|G].
  - exists (z - hm n k). split; [lia|]. replace (hm n k + (z - hm n k)) with z by lia.
    apply Nat.mod_small. exact Hz.
  - exists (n + z - hm n k). split; [lia|].
    replace (hm n k + (n + z - hm n k)) with (z + 1 * n) by lia.
    rewrite Nat.mod_add by lia. apply Nat.mod_small. exact Hz.
Qed.

Lemma pos_inj n k d e : d < n -> e < n -> pos n k d = pos n k e -> d = e.
Proof.
  intros Hd He H. assert (Hn : 0 < n) by lia. pose proof (hm_lt n k Hn) as Hh. unfold pos in H.
  assert (M : forall x, x < n -> (hm n k + x) mod n = if hm n k + x <? n then hm n k + x else hm n k + x - n).
  { intros x Hx. destruct (hm n k + x <? n) eqn:E.
    - apply Nat.ltb_lt in E. apply Nat.mod_small. exact E.
    - apply Nat.ltb_ge in E. replace (hm n k + x) with ((hm n k + x - n) + 1 * n) at 1 by lia.
      rewrite Nat.mod_add by lia. apply Nat.mod_small. lia. }
  rewrite !M in H by assumption.
  destruct (hm n k + d <? n) eqn:E1, (hm n k + e <? n) eqn:E2;
    try apply Nat.ltb_lt in E1; try apply Nat.ltb_ge in E1;
    try apply Nat.ltb_lt in E2; try apply Nat.ltb_ge in E2; lia.
Qed.

Lemma pos_S n k d : 0 < n -> (pos n k d + 1) mod n = pos n k (S d).
Proof.
  intros H. unfold pos. rewrite Nat.add_mod_idemp_l by lia. f_equal. lia.
Qed.

(** Where the probe for [k] stops. *)
Definition stops (T : list slot) (k : value) (d : nat) : Prop :=
  d < length T /\
  (is_null (key T (pos (length T) k d)) = true \/ eqb (key T (pos (length T) k d)) k = true) /\
  forall e, e < d -> nn T (pos (length T) k e) /\ eqb (key T (pos (length T) k e)) k = false.

Lemma stops_exists T k : length (entries T) < length T -> exists d, stops T k d.
Proof.
  intros H. destruct (exists_null T H) as (z & Hz & Nz).
  destruct (pos_surj (length T) k z ltac:(lia) Hz) as (dz & Hd & Ez).
  destruct (least_below (fun d => is_null (key T (pos (length T) k d)) ||
                                  eqb (key T (pos (length T) k d)) k) (length T))
    as (d & Hlt & Q & L).
  - exists dz. split; [exact Hd|]. rewrite Ez, Nz. reflexivity.
  - exists d. split; [exact Hlt|]. split.
    + apply orb_prop in Q. exact Q.
    + intros e He. specialize (L e He). apply orb_false_elim in L. exact L.
Qed.

Lemma hm_eq n a b : P a -> P b -> eqb a b = true -> hm n a = hm n b.
Proof. intros Ha Hb H. unfold hm. rewrite (eqb_hash a b Ha Hb H). reflexivity. Qed.

(* a key equal to k sits exactly where the probe stops *)
Lemma stops_found T k d i : Inv T -> P k -> stops T k d -> nn T i ->
  eqb (key T i) k = true -> i = pos (length T) k d.
Proof.
  intros HI Hk (Hd & Hs & Hb) Hi He.
  pose proof (nn_lt T i Hi) as Li. pose proof (inv_good T HI i Hi) as Gi.
  destruct (inv_chain T HI i Li Hi) as (di & Ldi & Edi & Cdi).
  assert (Ep : forall e, pos (length T) (key T i) e = pos (length T) k e)
    by (intros e; unfold pos; rewrite (hm_eq _ _ _ Gi Hk He); reflexivity).
  rewrite Ep in Edi.
  destruct (Nat.lt_trichotomy d di) as [L|[E|G]].
  - specialize (Cdi d L). rewrite Ep in Cdi.
    destruct Hs as [Hs|Hs]; [unfold nn in Cdi; congruence|].
    assert (X : i = pos (length T) k d).
    { apply (inv_uniq T HI); auto.
      - apply pos_lt; lia.
      - pose proof (inv_good T HI _ Cdi) as Gd.
        eapply eqb_trans; [exact Gi|exact Hk|exact Gd|exact He|].
        rewrite eqb_sym; auto. }
    exact X.
  - subst d. symmetry. exact Edi.
  - destruct (Hb di G) as [_ X]. rewrite Edi in X. congruence.
Qed.

Lemma stops_absent T k d : Inv T -> P k -> stops T k d ->
  is_null (key T (pos (length T) k d)) = true ->
  forall i, nn T i -> eqb (key T i) k = false.
Proof.
  intros HI Hk Hs Hn i Hi. destruct (eqb (key T i) k) eqn:E; [|reflexivity].
  pose proof (stops_found T k d i HI Hk Hs Hi E) as X. subst i. unfold nn in Hi. congruence.
Qed.

(** Filling a slot keeps chains. *)
Lemma nn_update_fill T s x j : s < length T -> is_null (fst x) = false ->
  nn T j -> nn (update T s x) j.
Proof.
  intros Hs Hx Hj. unfold nn, key in *. destruct (Nat.eq_dec s j) as [->|Ne].
  - rewrite at_update_eq by exact Hs. exact Hx.
  - rewrite at_update_ne by exact Ne. exact Hj.
Qed.

Lemma chain_fill T s x i : s < length T -> is_null (fst x) = false ->
  key (update T s x) i = key T i -> chain T i -> chain (update T s x) i.
Proof.
  intros Hs Hx Hk (d & Hd & Ed & Cd). exists d. rewrite update_length, Hk.
  repeat split; auto. intros e He. apply nn_update_fill; auto.
Qed.

Lemma inv_insert T k v d : Inv T -> P k -> stops T k d ->
  is_null (key T (pos (length T) k d)) = true ->
  2 * S (length (entries T)) <= length T ->
  Inv (update T (pos (length T) k d) (k, v)) /\
  Permutation (entries (update T (pos (length T) k d) (k, v))) ((k, v) :: entries T).
Proof.
  intros HI Hk Hst Hn Hl. pose proof (inv_pos T HI) as Hp. pose proof Hst as (Hd & _ & Hb).
  set (s := pos (length T) k d) in *.
  assert (Ls : s < length T) by (apply pos_lt; exact Hp).
  pose proof (P_nn k Hk) as Nk.
  assert (Ks : key (update T s (k, v)) s = k) by (unfold key; rewrite at_update_eq by exact Ls; reflexivity).
  assert (Ko : forall j, j <> s -> key (update T s (k, v)) j = key T j)
    by (intros j Hj; unfold key; rewrite at_update_ne by congruence; reflexivity).
  assert (Pe : Permutation (entries (update T s (k, v))) ((k, v) :: entries T)).
  { pose proof (entries_update T s (k, v) Ls) as E. unfold ent1 in E at 1.
    unfold key in Hn. rewrite Hn in E. simpl in E. unfold ent1 in E. simpl in E. rewrite Nk in E. exact E. }
  pose proof (stops_absent T k d HI Hk Hst Hn) as Ab.
  split; [|exact Pe]. constructor.
  - rewrite update_length. exact Hp.
  - intros i Hi. destruct (Nat.eq_dec i s) as [->|Ne].
    + rewrite Ks. exact Hk.
    + unfold nn in Hi. rewrite Ko in * by exact Ne. apply (inv_good T HI). exact Hi.
  - intros i j Li Lj Ni Nj E. rewrite update_length in *. unfold nn in Ni, Nj.
    destruct (Nat.eq_dec i s) as [->|Nei], (Nat.eq_dec j s) as [->|Nej]; auto.
    + rewrite Ks in *. rewrite Ko in * by exact Nej.
      rewrite eqb_sym in E; [|exact Hk|apply (inv_good T HI); exact Nj].
      rewrite Ab in E by exact Nj. discriminate.
    + rewrite Ks in *. rewrite Ko in * by exact Nei. rewrite Ab in E by exact Ni. discriminate.
    + rewrite !Ko in * by assumption. apply (inv_uniq T HI); auto.
  - intros i Li Ni. rewrite update_length in Li. destruct (Nat.eq_dec i s) as [->|Ne].
    + exists d. rewrite update_length, Ks. repeat split; auto.
      intros e He. apply nn_update_fill; auto. apply Hb; exact He.
    + apply chain_fill; auto. apply (inv_chain T HI); auto.
      unfold nn in *. rewrite Ko in Ni by exact Ne. exact Ni.
  - rewrite update_length, (Permutation_length Pe). simpl length. lia.
Qed.

Lemma inv_replace T k v d : Inv T -> P k -> stops T k d ->
  nn T (pos (length T) k d) -> eqb (key T (pos (length T) k d)) k = true ->
  let s := pos (length T) k d in
  Inv (update T s (key T s, v)) /\
  entries (update T s (key T s, v)) =
  map (fun e => if eqb (fst e) k then (fst e, v) else e) (entries T).
Proof.
  intros HI Hk Hst Hn He s. pose proof (inv_pos T HI) as Hp.
  assert (Ls : s < length T) by (apply pos_lt; exact Hp).
  assert (K : forall j, key (update T s (key T s, v)) j = key T j).
  { intros j. unfold key at 1. destruct (Nat.eq_dec s j) as [<-|Ne].
    - rewrite at_update_eq by exact Ls. reflexivity.
    - rewrite at_update_ne by exact Ne. reflexivity. }
  assert (En : entries (update T s (key T s, v)) =
    map (fun e => if eqb (fst e) k then (fst e, v) else e) (entries T)).
  { rewrite update_split by exact Ls.
    replace (entries T) with (entries (firstn s T ++ at_ T s :: skipn (S s) T))
      by (rewrite <- (split_at T s Ls); reflexivity).
    rewrite !entries_app, !entries_cons, !map_app.
    assert (Z : forall U, (forall e, In e (entries U) -> eqb (fst e) k = false) ->
                map (fun e => if eqb (fst e) k then (fst e, v) else e) (entries U) = entries U).
    { intros U HU. rewrite <- map_id. apply map_ext_in. intros e Hin. rewrite (HU e Hin). reflexivity. }
    rewrite !Z.
    - f_equal. f_equal. unfold ent1. cbn [fst]. fold (key T s).
      unfold nn in Hn. fold s in Hn. rewrite Hn. cbn [map]. fold (key T s).
      fold s in He. rewrite He. reflexivity.
    - intros e Hin. destruct (eqb (fst e) k) eqn:Ee; [exfalso|reflexivity].
      apply in_entries in Hin as (i & Hi & Ei & Ni).
      rewrite skipn_length in Hi.
      assert (X : at_ T (S s + i) = e).
      { rewrite <- Ei. unfold at_. rewrite (split_at T s Ls) at 1.
        assert (Lf : length (firstn s T) = s) by (rewrite firstn_length; lia).
        rewrite app_nth2 by lia. rewrite Lf. replace (S s + i - s) with (S i) by lia. reflexivity. }
      assert (Y : S s + i = s).
      { apply (stops_found T k d); auto.
        - unfold nn, key. rewrite X, <- Ei. exact Ni.
        - unfold key. rewrite X. exact Ee. }
      lia.
    - intros e Hin. destruct (eqb (fst e) k) eqn:Ee; [exfalso|reflexivity].
      apply in_entries in Hin as (i & Hi & Ei & Ni). rewrite firstn_length in Hi.
      assert (X : at_ T i = e).
      { rewrite <- Ei. unfold at_. rewrite (split_at T s Ls) at 1.
        rewrite app_nth1 by (rewrite firstn_length; lia). reflexivity. }
      assert (Y : i = s).
      { apply (stops_found T k d); auto.
        - unfold nn, key. rewrite X, <- Ei. exact Ni.
        - unfold key. rewrite X. exact Ee. }
      lia. }
  split; [|exact En]. constructor.
  - rewrite update_length. exact Hp.
  - intros i Hi. unfold nn in Hi. rewrite K in *. apply (inv_good T HI). exact Hi.
  - intros i j Li Lj Ni Nj E. rewrite update_length in *. unfold nn in *. rewrite !K in *.
    apply (inv_uniq T HI); auto.
  - intros i Li Ni. rewrite update_length in Li. unfold nn in Ni. rewrite K in Ni.
    destruct (inv_chain T HI i Li Ni) as (di & A1 & A2 & A3). exists di.
    rewrite update_length, K. repeat split; auto. intros e Hee. unfold nn. rewrite K. apply A3. exact Hee.
  - rewrite update_length, En, map_length. apply (inv_load T HI).
Qed.


(** ** Removal *)

(* slots numbered from the home of the removed key *)
Lemma pos_coord n k i : 0 < n -> i < n -> exists e, e < n /\ i = pos n k e.
Proof. intros Hn Hi. destruct (pos_surj n k i Hn Hi) as (d & Hd & E). exists d. auto. Qed.

Lemma pos_shift n k q a x : 0 < n -> hm n q = pos n k a -> pos n q x = pos n k (a + x).
Proof.
  intros Hn H. unfold pos in *. rewrite H. rewrite Nat.add_mod_idemp_l by lia. f_equal. lia.
Qed.

Lemma pos_mod n k x : 0 < n -> pos n k x = pos n k (x mod n).
Proof. intros Hn. unfold pos. rewrite Nat.add_mod_idemp_r by lia. reflexivity. Qed.

Lemma mod_wrap n x : 0 < n -> x < 2 * n -> x mod n = if x <? n then x else x - n.
Proof.
  intros Hn Hx. destruct (x <? n) eqn:E.
  - apply Nat.ltb_lt in E. apply Nat.mod_small. exact E.
  - apply Nat.ltb_ge in E. replace x with ((x - n) + 1 * n) at 1 by lia.
    rewrite Nat.mod_add by lia. apply Nat.mod_small. lia.
Qed.

(* a probe path that meets no empty slot cannot cross the empty slot [N] *)
Lemma path_order T k q N e d :
  0 < length T -> N < length T -> e < length T -> e <> N ->
  is_null (key T (pos (length T) k N)) = true ->
  d < length T -> pos (length T) q d = pos (length T) k e ->
  (forall x, x < d -> nn T (pos (length T) q x)) ->
  forall x, x < d -> exists y, y < length T /\ pos (length T) q x = pos (length T) k y /\
    (e < N -> y < e \/ N < y) /\ (N < e -> N < y /\ y < e).
Proof.
  intros Hn HN He HeN Nul Hd Hp Hnn x Hx.
  set (n := length T) in *.
  destruct (pos_coord n k (hm n q) Hn (hm_lt n q Hn)) as (a & Ha & Ea).
  assert (Sh : forall z, pos n q z = pos n k (a + z)) by (intros z; apply pos_shift; auto).
  assert (Xz : forall z, z < n -> exists y, y < n /\ pos n q z = pos n k y /\
               (y = if a + z <? n then a + z else a + z - n)).
  { intros z Hz. exists ((a + z) mod n). rewrite Sh. rewrite (pos_mod n k (a + z)) by exact Hn.
    split; [apply Nat.mod_upper_bound; lia|]. split; [reflexivity|]. apply mod_wrap; lia. }
  (* no path slot is N *)
  assert (NN : forall z, z < d -> (if a + z <? n then a + z else a + z - n) <> N).
  { intros z Hz E. destruct (Xz z ltac:(lia)) as (y & Hy & Ey & Dy). rewrite <- Dy in E.
    specialize (Hnn z Hz). rewrite Ey, E in Hnn. unfold nn in Hnn. congruence. }
  destruct (Xz d Hd) as (yd & Hyd & Eyd & Dyd).
  assert (Ed : e = yd).
  { apply (pos_inj n k); auto. rewrite <- Eyd. symmetry. exact Hp. }
  destruct (Xz x ltac:(lia)) as (y & Hy & Ey & Dy).
  exists y. split; [exact Hy|]. split; [exact Ey|].
  pose proof (NN x Hx) as NNx.
  subst e yd.
  assert (Crit : forall z, z < d -> a + z = N -> False).
  { intros z Hz Ez. apply (NN z Hz). replace (a + z <? n) with true by (symmetry; apply Nat.ltb_lt; lia). exact Ez. }
  assert (Crit2 : forall z, z < d -> a + z = N + n -> False).
  { intros z Hz Ez. apply (NN z Hz). replace (a + z <? n) with false by (symmetry; apply Nat.ltb_ge; lia). lia. }
  assert (C1 : a <= N -> N < a + d -> False) by (intros; apply (Crit (N - a)); lia).
  assert (C2 : a <= N + n -> N + n < a + d -> False) by (intros; apply (Crit2 (N + n - a)); lia).
  destruct (a + x <? n) eqn:E1; [apply Nat.ltb_lt in E1|apply Nat.ltb_ge in E1];
  (destruct (a + d <? n) eqn:E2; [apply Nat.ltb_lt in E2|apply Nat.ltb_ge in E2]);
  split; intros; try lia.
Qed.

Record RmInv (T0 T : list slot) (k : value) (N j : nat) : Prop := {
  rm_len : length T = length T0;
  rm_j : j <= N;
  rm_good : goodkeys T;
  rm_uniq : uniq T;
  rm_out : forall e, e < length T0 -> j <= e ->
             at_ T (pos (length T0) k e) = at_ T0 (pos (length T0) k e);
  rm_chain : forall e, e < length T0 -> (e < j \/ N < e) ->
             nn T (pos (length T0) k e) -> chain T (pos (length T0) k e);
  rm_done : forall e, e < j -> nn T (pos (length T0) k e) ->
             eqb (key T (pos (length T0) k e)) k = false;
  rm_ents : Permutation (entries T) (entries T0) \/
            exists x, eqb (fst x) k = true /\ Permutation (x :: entries T) (entries T0)
}.

Lemma rm_load T0 T k N j : RmInv T0 T k N j -> length (entries T) <= length (entries T0).
Proof.
  intros H. destruct (rm_ents _ _ _ _ _ H) as [E|(x & _ & E)];
    apply Permutation_length in E; simpl in E; lia.
Qed.

Section Rm.
Variables (T0 : list slot) (k : value) (N : nat).
Hypothesis HI0 : Inv T0.
Hypothesis Hk : P k.
Hypothesis HN : N < length T0.
Hypothesis HNul : is_null (key T0 (pos (length T0) k N)) = true.
Hypothesis HNn : forall e, e < N -> nn T0 (pos (length T0) k e).

Local Notation n := (length T0).
Local Definition n_pos : 0 < n := inv_pos T0 HI0.

Lemma rm_null T j : RmInv T0 T k N j -> is_null (key T (pos n k N)) = true.
Proof.
  intros H. unfold key. rewrite (rm_out _ _ _ _ _ H) by (exact HN || apply (rm_j _ _ _ _ _ H)).
  exact HNul.
Qed.

Lemma rm_init : RmInv T0 T0 k N 0.
Proof.
  constructor; auto; try lia.
  - apply (inv_good T0 HI0).
  - apply (inv_uniq T0 HI0).
  - intros e He _ Hnn. apply (inv_chain T0 HI0); [apply pos_lt; exact n_pos|exact Hnn].
Qed.

Lemma rm_here T j : RmInv T0 T k N j -> j < N -> nn T (pos n k j).
Proof.
  intros H Hj. unfold nn, key. rewrite (rm_out _ _ _ _ _ H) by lia.
  apply HNn. exact Hj.
Qed.

(* chains of finished slots do not use slot j, so emptying it keeps them *)
Lemma chain_clear T j x e : RmInv T0 T k N j -> j < N -> is_null (fst x) = true ->
  e < n -> (e < j \/ N < e) -> nn T (pos n k e) ->
  chain (update T (pos n k j) x) (pos n k e).
Proof.
  intros H Hj Hx He Hs Hnn.
  destruct (rm_chain _ _ _ _ _ H e He Hs Hnn) as (d & Ld & Ed & Cd).
  pose proof (rm_len _ _ _ _ _ H) as L.
  assert (Lj : pos (length T0) k j < length T) by (rewrite L; apply pos_lt; exact n_pos).
  assert (Ne : pos (length T0) k j <> pos (length T0) k e).
  { intros E. apply pos_inj in E; lia. }
  assert (Kq : key (update T (pos (length T0) k j) x) (pos (length T0) k e) = key T (pos (length T0) k e))
    by (unfold key; rewrite at_update_ne by exact Ne; reflexivity).
  set (q := key T (pos (length T0) k e)) in *.
  exists d. rewrite update_length, Kq. repeat split; auto.
  intros z Hz. specialize (Cd z Hz) as Cz.
  pose proof (path_order T k q N e d) as PO.
  rewrite L in PO.
  destruct (PO n_pos HN He ltac:(lia) (rm_null T j H) ltac:(lia)
              ltac:(rewrite L in Ed; exact Ed) ltac:(rewrite L in Cd; exact Cd) z Hz)
    as (y & Ly & Ey & Y1 & Y2).
  rewrite L in Cz |- *. unfold nn, key. rewrite at_update_ne; [exact Cz|].
  rewrite Ey. intros E. apply pos_inj in E; [|lia|lia].
  destruct Hs as [Hs|Hs]; lia.
Qed.

Lemma rm_drop T j : RmInv T0 T k N j -> j < N ->
  eqb (key T (pos n k j)) k = true ->
  RmInv T0 (update T (pos n k j) (VNull, snd (at_ T (pos n k j)))) k N (S j).
Proof.
  intros H Hj He. pose proof (rm_here T j H Hj) as Hn. pose proof (rm_len _ _ _ _ _ H) as L.
  set (p := pos n k j) in *. set (T' := update T p (VNull, snd (at_ T p))).
  assert (Lp : p < length T) by (rewrite L; apply pos_lt; exact n_pos).
  assert (Kp : is_null (key T' p) = true)
    by (unfold T', key; rewrite at_update_eq by exact Lp; reflexivity).
  assert (Ko : forall i, i <> p -> at_ T' i = at_ T i)
    by (intros i Hi; unfold T'; apply at_update_ne; congruence).
  assert (Sub : forall i, nn T' i -> i <> p /\ nn T i /\ key T' i = key T i).
  { intros i Hi. assert (i <> p) by (intros ->; unfold nn in Hi; congruence).
    unfold nn, key in *. rewrite Ko in * by assumption. auto. }
  assert (NeP : forall e, e < n -> e <> j -> pos n k e <> p).
  { intros e Le Ne E. apply Ne. apply (pos_inj n k); auto; lia. }
  constructor.
  - unfold T'. rewrite update_length. exact L.
  - lia.
  - intros i Hi. destruct (Sub i Hi) as (_ & Ni & ->). apply (rm_good _ _ _ _ _ H). exact Ni.
  - intros a b La Lb Na Nb E. destruct (Sub a Na) as (_ & Na' & Ka), (Sub b Nb) as (_ & Nb' & Kb).
    rewrite Ka, Kb in E. unfold T' in La, Lb. rewrite update_length in La, Lb.
    apply (rm_uniq _ _ _ _ _ H); auto.
  - intros e Le Hle. rewrite Ko by (apply NeP; [exact Le|lia]).
    apply (rm_out _ _ _ _ _ H); [exact Le|lia].
  - intros e Le Hs Hne. destruct (Sub _ Hne) as (Ne & Ne' & _).
    apply chain_clear; auto. destruct Hs; [|auto]. left.
    assert (e <> j) by (intros ->; apply Ne; reflexivity). lia.
  - intros e Hle Hne. destruct (Sub _ Hne) as (Ne & Ne' & ->).
    apply (rm_done _ _ _ _ _ H); auto.
    assert (e <> j) by (intros ->; apply Ne; reflexivity). lia.
  - right. exists (at_ T p). split; [exact He|].
    pose proof (entries_update T p (VNull, snd (at_ T p)) Lp) as E. fold T' in E.
    unfold ent1 in E. simpl in E. unfold nn, key in Hn. rewrite Hn in E. simpl in E.
    destruct (rm_ents _ _ _ _ _ H) as [E0|(x & Ex & E0)].
    + rewrite E. exact E0.
    + exfalso.
      (* two keys equal to k in T0 *)
      assert (In (at_ T p) (entries T0)).
      { apply (Permutation_in _ E0). right. apply in_entries. exists p. auto. }
      assert (In x (entries T0)) by (apply (Permutation_in _ E0); left; reflexivity).
      apply in_entries in H0 as (i1 & L1 & A1 & N1).
      apply in_entries in H1 as (i2 & L2 & A2 & N2).
      destruct (stops_exists T0 k) as (d & Sd).
      { pose proof (inv_load T0 HI0). pose proof (inv_pos T0 HI0). lia. }
      assert (I1 : i1 = pos (length T0) k d)
        by (apply stops_found; auto; unfold key; rewrite A1; exact He).
      assert (I2 : i2 = pos (length T0) k d)
        by (apply stops_found; auto; unfold key; rewrite A2; exact Ex).
      (* then x occurs twice in entries T0, but T0's slots are distinct *)
      assert (In x (entries T)).
      { apply in_entries. exists p. repeat split; auto. congruence. }
      clear E. 
      assert (D : forall U y, Permutation (y :: entries U) (entries T0) -> In y (entries U) -> uniq U ->
                  False).
      { clear - HI0 eqb_refl. intros U y HP HinU _.
        apply in_split in HinU as (A & B & EU). rewrite EU in HP.
        assert (HP2 : Permutation (y :: y :: A ++ B) (entries T0)).
        { rewrite <- HP. apply perm_skip. apply Permutation_middle. }
        assert (Cnt : forall V, uniq V -> goodkeys V -> forall A' B' C',
                  entries V = A' ++ y :: B' ++ y :: C' -> False).
        { clear - eqb_refl. induction V as [|v V IH]; intros HU HG A' B' C' EV.
          - destruct A'; discriminate.
          - assert (HU' : uniq V).
            { intros i j Li Lj Ni Nj E. assert (X : S i = S j); [|lia].
              apply (HU (S i) (S j)); simpl; auto; lia. }
            assert (HG' : goodkeys V) by (intros i Hi; apply (HG (S i)); exact Hi).
            rewrite entries_cons in EV. unfold ent1 in EV. destruct (is_null (fst v)) eqn:Nv.
            + simpl in EV. eapply IH; eauto.
            + simpl in EV. destruct A' as [|a A'].
              * simpl in EV. injection EV as -> EV.
                assert (Hin : In y (entries V)) by (rewrite EV; apply in_or_app; right; left; reflexivity).
                apply in_entries in Hin as (i & Li & Ai & Ni).
                assert (0 = S i); [|lia].
                apply (HU 0 (S i)); simpl; auto; try lia.
                unfold key. simpl. fold (at_ V i). change (at_ (y :: V) 0) with y.
                change (at_ (y :: V) (S i)) with (at_ V i). rewrite Ai. apply eqb_refl.
                apply (HG 0). exact Nv.
              * simpl in EV. injection EV as _ EV. eapply IH; eauto. }
        assert (Hin : In y (entries T0)) by (apply (Permutation_in _ HP2); left; reflexivity).
        apply in_split in Hin as (A2 & B2 & E2). rewrite E2 in HP2.
        apply Permutation_cons_app_inv in HP2.
        assert (Hin2 : In y (A2 ++ B2)) by (apply (Permutation_in _ HP2); left; reflexivity).
        apply in_app_or in Hin2 as [Hi|Hi]; apply in_split in Hi as (A3 & B3 & E3).
        - subst A2. apply (Cnt T0 (inv_uniq T0 HI0) (inv_good T0 HI0) A3 B3 B2).
          rewrite E2, <- app_assoc. reflexivity.
        - subst B2. apply (Cnt T0 (inv_uniq T0 HI0) (inv_good T0 HI0) A2 A3 B3).
          exact E2. }
      eapply (D T x); eauto. apply (rm_uniq _ _ _ _ _ H).
Qed.

Lemma rm_keep T j : RmInv T0 T k N j -> j < N ->
  eqb (key T (pos n k j)) k = false -> hm n (key T (pos n k j)) = pos n k j ->
  RmInv T0 T k N (S j).
Proof.
  intros H Hj He Hh. destruct H as [L J G U O C D E]. constructor; auto; try lia.
  - intros e Le Hle. apply O; auto; lia.
  - intros e Le Hs Hne. destruct (Nat.eq_dec e j) as [->|Ne].
    + exists 0. rewrite L. repeat split; [exact n_pos| |intros; lia].
      unfold pos at 1. rewrite Hh, Nat.add_0_r. unfold pos.
      rewrite Nat.mod_mod by (pose proof n_pos; lia). reflexivity.
    + apply C; auto. destruct Hs; [left; lia|auto].
  - intros e Hle Hne. destruct (Nat.eq_dec e j) as [->|Ne]; [exact He|]. apply D; auto; lia.
Qed.

Lemma rm_move T j : RmInv T0 T k N j -> j < N ->
  eqb (key T (pos n k j)) k = false ->
  let p := pos n k j in let q := key T p in let v := snd (at_ T p) in
  let T1 := update T p (VNull, v) in
  exists d, stops T1 q d /\ is_null (key T1 (pos n q d)) = true /\
    RmInv T0 (update T1 (pos n q d) (q, v)) k N (S j) /\
    Permutation (entries (update T1 (pos n q d) (q, v))) (entries T).
Proof.
  intros H Hj He p q v T1. pose proof (rm_here T j H Hj) as Hn. pose proof (rm_len _ _ _ _ _ H) as L.
  fold p in Hn. fold p in He. fold q in He.
  assert (Lp : p < length T) by (rewrite L; apply pos_lt; exact n_pos).
  assert (Kp : is_null (key T1 p) = true)
    by (unfold T1, key; rewrite at_update_eq by exact Lp; reflexivity).
  assert (Ko : forall i, i <> p -> at_ T1 i = at_ T i)
    by (intros i Hi; unfold T1; apply at_update_ne; congruence).
  assert (L1 : length T1 = n) by (unfold T1; rewrite update_length; exact L).
  assert (Sub : forall i, nn T1 i -> i <> p /\ nn T i /\ key T1 i = key T i).
  { intros i Hi. assert (i <> p) by (intros ->; unfold nn in Hi; congruence).
    unfold nn, key in *. rewrite Ko in * by assumption. auto. }
  assert (Pq : P q) by (apply (rm_good _ _ _ _ _ H); exact Hn).
  assert (Nq : is_null q = false) by (apply P_nn; exact Pq).
  assert (Uq : forall i, nn T1 i -> eqb (key T1 i) q = false).
  { intros i Hi. destruct (Sub i Hi) as (Ne & Ni & Ki). rewrite Ki.
    destruct (eqb (key T i) q) eqn:E; [|reflexivity]. exfalso. apply Ne.
    apply (rm_uniq _ _ _ _ _ H); auto. apply nn_lt; exact Ni. }
  (* original chain of q *)
  assert (Q0 : at_ T p = at_ T0 p) by (apply (rm_out _ _ _ _ _ H); [pose proof HN; lia|lia]).
  assert (Kq0 : key T0 p = q) by (unfold q, key; rewrite Q0; reflexivity).
  destruct (inv_chain T0 HI0 p) as (dq & Ldq & Edq & Cdq).
  { unfold p. apply pos_lt. exact n_pos. }
  { unfold nn. rewrite Kq0. exact Nq. }
  rewrite Kq0 in *.
  (* the probe stops at or before p, at an empty slot *)
  destruct (least_below (fun d => is_null (key T1 (pos n q d)) || eqb (key T1 (pos n q d)) q) n)
    as (d & Hlt & Qd & Ld).
  { exists dq. split; [exact Ldq|]. rewrite Edq, Kp. reflexivity. }
  assert (St : stops T1 q d).
  { unfold stops. rewrite L1. split; [exact Hlt|]. split.
    - apply orb_prop in Qd. exact Qd.
    - intros e Hlee. specialize (Ld e Hlee). apply orb_false_elim in Ld. exact Ld. }
  assert (Nd : is_null (key T1 (pos n q d)) = true).
  { destruct (is_null (key T1 (pos n q d))) eqn:E; [reflexivity|].
    simpl in Qd. rewrite Uq in Qd by exact E. discriminate. }
  assert (Dle : d <= dq).
  { destruct (Nat.le_gt_cases d dq) as [X|X]; [exact X|]. specialize (Ld dq X).
    cbn beta in Ld. rewrite Edq, Kp in Ld. discriminate. }
  (* position of the stop in coordinates of k *)
  assert (Win : exists f, f <= j /\ pos n q d = pos n k f).
  { destruct (Nat.eq_dec d dq) as [->|Ne].
    - exists j. rewrite Edq. split; [lia|reflexivity].
    - assert (X : d < dq) by lia.
      destruct (path_order T0 k q N j dq n_pos HN ltac:(pose proof HN; lia) ltac:(lia) HNul Ldq Edq Cdq d X)
        as (y & Ly & Ey & Y1 & _).
      destruct (Y1 Hj) as [Yl|Yg].
      + exists y. split; [lia|exact Ey].
      + exfalso.
        assert (at_ T (pos n k y) = at_ T0 (pos n k y)) by (apply (rm_out _ _ _ _ _ H); [exact Ly|lia]).
        specialize (Cdq d X). rewrite Ey in *. unfold nn, key in Cdq. rewrite <- H0 in Cdq.
        unfold key in Nd. rewrite Ko in Nd; [congruence|].
        unfold p. intros E. apply pos_inj in E; lia. }
  destruct Win as (f & Hf & Ef). exists d. split; [exact St|]. split; [exact Nd|].
  set (s := pos n q d) in *.
  assert (Ls : s < length T1) by (rewrite L1; apply pos_lt; exact n_pos).
  set (T2 := update T1 s (q, v)).
  assert (L2 : length T2 = n) by (unfold T2; rewrite update_length; exact L1).
  assert (A2s : at_ T2 s = (q, v)) by (apply at_update_eq; exact Ls).
  assert (A2o : forall i, i <> s -> at_ T2 i = at_ T1 i) by (intros i Hi; apply at_update_ne; congruence).
  assert (Pe : Permutation (entries T2) (entries T)).
  { pose proof (entries_update T1 s (q, v) Ls) as E2. fold T2 in E2.
    pose proof (entries_update T p (VNull, v) Lp) as E1. fold T1 in E1.
    unfold ent1 in E1, E2. unfold key in Nd. rewrite Nd in E2. cbn [fst] in E1, E2.
    change (is_null VNull) with true in E1. rewrite Nq in E2. cbn [app] in E1, E2.
    unfold nn, key in Hn. rewrite Hn in E1. cbn [app] in E1.
    rewrite E2. rewrite <- E1.
    assert (X : at_ T p = (q, v)) by (unfold q, v, key; destruct (at_ T p); reflexivity).
    rewrite X. reflexivity. }
  split; [|exact Pe].
  assert (Sub2 : forall i, nn T2 i -> i <> s -> i <> p /\ nn T i /\ key T2 i = key T i /\ nn T1 i).
  { intros i Hi Hs. assert (N1 : nn T1 i) by (unfold nn, key in *; rewrite A2o in Hi by exact Hs; exact Hi).
    destruct (Sub i N1) as (A & B & C). repeat split; auto.
    rewrite <- C. unfold key. rewrite A2o by exact Hs. reflexivity. }
  assert (K2s : key T2 s = q) by (unfold key; rewrite A2s; reflexivity).
  constructor.
  - exact L2.
  - lia.
  - intros i Hi. destruct (Nat.eq_dec i s) as [->|Ne]; [rewrite K2s; exact Pq|].
    destruct (Sub2 i Hi Ne) as (_ & Ni & -> & _). apply (rm_good _ _ _ _ _ H). exact Ni.
  - intros a b La Lb Na Nb E.
    destruct (Nat.eq_dec a s) as [->|Nea], (Nat.eq_dec b s) as [->|Neb]; auto.
    + exfalso. destruct (Sub2 b Nb Neb) as (_ & Nb' & Kb & N1).
      rewrite K2s in E. pose proof (Uq b N1) as Ub.
      assert (Kb1 : key T1 b = key T2 b) by (unfold key; rewrite A2o by exact Neb; reflexivity).
      rewrite Kb1 in Ub. rewrite eqb_sym in E; auto; [congruence|].
      rewrite Kb. apply (rm_good _ _ _ _ _ H). exact Nb'.
    + exfalso. destruct (Sub2 a Na Nea) as (_ & Na' & Ka & N1).
      rewrite K2s in E. pose proof (Uq a N1) as Ua.
      assert (Ka1 : key T1 a = key T2 a) by (unfold key; rewrite A2o by exact Nea; reflexivity).
      congruence.
    + destruct (Sub2 a Na Nea) as (_ & Na' & Ka & _), (Sub2 b Nb Neb) as (_ & Nb' & Kb & _).
      rewrite Ka, Kb in E. apply (rm_uniq _ _ _ _ _ H); auto; rewrite L; congruence.
  - intros e Le Hle.
    assert (NeS : pos n k e <> s). { rewrite Ef. intros E. apply pos_inj in E; lia. }
    assert (NeP : pos n k e <> p). { unfold p. intros E. apply pos_inj in E; lia. }
    rewrite A2o by exact NeS. rewrite Ko by exact NeP. apply (rm_out _ _ _ _ _ H); [exact Le|lia].
  - intros e Le Hs Hne. destruct (Nat.eq_dec (pos n k e) s) as [Es|Ne].
    + rewrite Es. exists d. rewrite L2, K2s. split; [exact Hlt|]. split; [reflexivity|].
      intros x Hx. destruct St as (_ & _ & St). rewrite L1 in St.
      apply nn_update_fill; auto. apply St. exact Hx.
    + destruct (Sub2 _ Hne Ne) as (NeP & Ni & Kk & _).
      apply chain_fill; auto.
      * unfold key. fold T2. rewrite A2o by exact Ne. reflexivity.
      * apply chain_clear; auto. destruct Hs as [Hs|Hs]; [|auto]. left.
        assert (e <> j) by (intros ->; apply NeP; reflexivity). lia.
  - intros e Hle Hne. destruct (Nat.eq_dec (pos n k e) s) as [Es|Ne].
    + rewrite Es, K2s. exact He.
    + destruct (Sub2 _ Hne Ne) as (NeP & Ni & -> & _). apply (rm_done _ _ _ _ _ H); auto.
      assert (e <> j) by (intros ->; apply NeP; reflexivity). lia.
  - destruct (rm_ents _ _ _ _ _ H) as [E|(x & Ex & E)].
    + left. rewrite Pe. exact E.
    + right. exists x. split; [exact Ex|]. rewrite Pe. exact E.
Qed.

Lemma rm_final T : RmInv T0 T k N N ->
  Inv T /\ Permutation (entries T) (filter (fun e => negb (eqb (fst e) k)) (entries T0)).
Proof.
  intros H. pose proof (rm_len _ _ _ _ _ H) as L.
  assert (NoK : forall i, nn T i -> eqb (key T i) k = false).
  { intros i Hi. pose proof (nn_lt T i Hi) as Li. rewrite L in Li.
    destruct (pos_coord n k i n_pos Li) as (e & Le & ->).
    destruct (Nat.lt_trichotomy e N) as [A|[->|B]].
    - apply (rm_done _ _ _ _ _ H); auto.
    - pose proof (rm_null T N H). unfold nn in Hi. congruence.
    - assert (Ea : at_ T (pos n k e) = at_ T0 (pos n k e)) by (apply (rm_out _ _ _ _ _ H); [exact Le|lia]).
      unfold nn, key in Hi. unfold key. rewrite Ea in *.
      destruct (eqb (fst (at_ T0 (pos n k e))) k) eqn:E; [exfalso|reflexivity].
      destruct (stops_exists T0 k) as (d & Sd).
      { pose proof (inv_load T0 HI0). pose proof (inv_pos T0 HI0). lia. }
      assert (X : pos n k e = pos n k d) by (apply (stops_found T0 k d); auto).
      destruct Sd as (Ld & _ & Sd). apply pos_inj in X; auto. subst e.
      specialize (Sd N B) as [S1 _]. unfold nn in S1. congruence. }
  assert (F : filter (fun e => negb (eqb (fst e) k)) (entries T) = entries T).
  { assert (A : forall l : list slot, (forall e, In e l -> eqb (fst e) k = false) ->
              filter (fun e => negb (eqb (fst e) k)) l = l).
    { induction l as [|x l IH]; intros Hl; [reflexivity|]. cbn [filter].
      rewrite (Hl x) by (left; reflexivity). cbn [negb].
      rewrite IH by (intros e Hin; apply Hl; right; exact Hin). reflexivity. }
    apply A. intros e Hin. apply in_entries in Hin as (i & _ & <- & Ni). apply NoK. exact Ni. }
  split.
  - constructor.
    + rewrite L. exact n_pos.
    + apply (rm_good _ _ _ _ _ H).
    + apply (rm_uniq _ _ _ _ _ H).
    + intros i Li Ni. rewrite L in Li. destruct (pos_coord n k i n_pos Li) as (e & Le & ->).
      apply (rm_chain _ _ _ _ _ H); auto.
      destruct (Nat.lt_trichotomy e N) as [A|[->|B]]; auto.
      pose proof (rm_null T N H). unfold nn in Ni. congruence.
    + pose proof (rm_load _ _ _ _ _ H). pose proof (inv_load T0 HI0). lia.
  - rewrite <- F. 
    assert (FP : forall a b : list slot, Permutation a b ->
       Permutation (filter (fun e => negb (eqb (fst e) k)) a) (filter (fun e => negb (eqb (fst e) k)) b)).
    { intros a b HP. induction HP; cbn [filter].
      - constructor.
      - destruct (negb (eqb (fst x) k)); [apply perm_skip|]; assumption.
      - destruct (negb (eqb (fst x) k)), (negb (eqb (fst y) k)); try apply perm_swap; reflexivity.
      - etransitivity; eassumption. }
    destruct (rm_ents _ _ _ _ _ H) as [E|(x & Ex & E)].
    + apply FP. exact E.
    + apply FP in E. cbn [filter] in E. rewrite Ex in E. exact E.
Qed.

End Rm.


(** ** The model executes these table operations *)

Definition RT (d : dict) (T : list slot) : Prop :=
  d_buckets d = length T /\ d_filled d = length (entries T) /\
  Rarr (d_keys d) true (map fst T) /\ Rarr (d_values d) true (map snd T).

(* the same without the count, for intermediate states *)
Definition RT' (d : dict) (T : list slot) : Prop :=
  d_buckets d = length T /\
  Rarr (d_keys d) true (map fst T) /\ Rarr (d_values d) true (map snd T).

Lemma RT_RT' d T : RT d T -> RT' d T.
Proof. unfold RT, RT'. tauto. Qed.

Lemma nth_error_at (T : list slot) i : i < length T -> nth_error T i = Some (at_ T i).
Proof. intros H. unfold at_. apply nth_error_nth'. exact H. Qed.

Lemma range_ok {A} (l : list A) (m : list value) i : length m = length l -> i < length l ->
  in_range m (Z.of_nat i) = true.
Proof. intros E H. unfold in_range. rewrite E. apply andb_true_intro; split; lia. Qed.

Lemma dkey_RT d T i : RT' d T -> i < length T -> dkey d i = Ok (key T i).
Proof.
  intros (_ & Hk & _) Hi. unfold dkey. apply (get_R _ _ _ _ _ Hk).
  - apply (range_ok T); [apply map_length|exact Hi].
  - rewrite Nat2Z.id, nth_error_map, nth_error_at by exact Hi. reflexivity.
Qed.

Lemma dval_RT d T i : RT' d T -> i < length T -> dval d i = Ok (snd (at_ T i)).
Proof.
  intros (_ & _ & Hv) Hi. unfold dval. apply (get_R _ _ _ _ _ Hv).
  - apply (range_ok T); [apply map_length|exact Hi].
  - rewrite Nat2Z.id, nth_error_map, nth_error_at by exact Hi. reflexivity.
Qed.

Lemma map_update {A B} (f : A -> B) l i x : i < length l ->
  map f (update l i x) = firstn i (map f l) ++ f x :: skipn (S i) (map f l).
Proof.
  intros H. rewrite update_split by exact H. rewrite map_app. cbn [map].
  rewrite firstn_map, skipn_map. reflexivity.
Qed.

Lemma map_update_same {A B} (f : A -> B) l i x y : nth_error l i = Some y -> f x = f y ->
  map f (update l i x) = map f l.
Proof.
  revert l; induction i as [|i IH]; intros [|z l] H E; simpl in *; try discriminate.
  - injection H as ->. unfold update; simpl. rewrite E. reflexivity.
  - unfold update in *. simpl. f_equal. apply IH; auto.
Qed.

Lemma put_key_RT d T i k : RT' d T -> i < length T ->
  exists d', put_key d i k = Ok d' /\ RT' d' (update T i (k, snd (at_ T i))) /\ d_filled d' = d_filled d.
Proof.
  intros (Hb & Hk & Hv) Hi. unfold put_key.
  destruct (set_R _ _ _ (Z.of_nat i) k Hk) as (ks & -> & Hks).
  { apply (range_ok T); [apply map_length|exact Hi]. }
  simpl. eexists; split; [reflexivity|]. split; [|reflexivity].
  unfold RT'. cbn [d_buckets d_keys d_values]. rewrite update_length.
  rewrite Nat2Z.id in Hks.
  split; [exact Hb|]. split.
  - rewrite map_update by exact Hi. exact Hks.
  - rewrite (map_update_same snd T i _ (at_ T i)); [exact Hv|apply nth_error_at; exact Hi|reflexivity].
Qed.

Lemma put_val_RT d T i v : RT' d T -> i < length T ->
  exists d', put_val d i v = Ok d' /\ RT' d' (update T i (key T i, v)) /\ d_filled d' = d_filled d.
Proof.
  intros (Hb & Hk & Hv) Hi. unfold put_val.
  destruct (set_R _ _ _ (Z.of_nat i) v Hv) as (vs & -> & Hvs).
  { apply (range_ok T); [apply map_length|exact Hi]. }
  simpl. eexists; split; [reflexivity|]. split; [|reflexivity].
  unfold RT'. cbn [d_buckets d_keys d_values]. rewrite update_length.
  rewrite Nat2Z.id in Hvs.
  split; [exact Hb|]. split.
  - rewrite (map_update_same fst T i _ (at_ T i)); [exact Hk|apply nth_error_at; exact Hi|reflexivity].
  - rewrite map_update by exact Hi. exact Hvs.
Qed.

Lemma set_filled_RT' d T f : RT' d T -> RT' (set_filled d f) T.
Proof. intros H. exact H. Qed.

Lemma update_update {A} (l : list A) i x y : update (update l i x) i y = update l i y.
Proof.
  revert l; induction i as [|i IH]; intros [|z l]; try reflexivity.
  unfold update in *. simpl. f_equal. apply IH.
Qed.

Section Heap.
Variable place : nat -> Z.
Variable h : heap.
Hypothesis h_eq : forall a b, P a -> P b -> values_equal h a b = Ok (eqb a b).
Hypothesis h_hash : forall a, P a -> hash_value place h a = Ok (hash a).

Lemma home_RT d T k : RT' d T -> 0 < length T -> home d (hash k) = Ok (hm (length T) k).
Proof.
  intros (Hb & _) Hn. unfold home, hm. rewrite Hb.
  destruct (length T =? 0) eqn:E; [apply Nat.eqb_eq in E; lia|]. reflexivity.
Qed.

Lemma pos_0 n k : 0 < n -> pos n k 0 = hm n k.
Proof. intros H. unfold pos. rewrite Nat.add_0_r. apply Nat.mod_small. apply hm_lt. exact H. Qed.

(* the probe loop of DictSet *)
Lemma probe_set_exec gr d T k v dd :
  RT' d T -> goodkeys T -> P k -> stops T k dd ->
  forall e fuel, e <= dd -> dd - e < fuel ->
  exists d', probe_set h gr fuel d (hash k) (pos (length T) k e) (pos (length T) k 0) k v = Ok d' /\
    if is_null (key T (pos (length T) k dd))
    then RT' d' (update T (pos (length T) k dd) (k, v)) /\ d_filled d' = S (d_filled d)
    else RT' d' (update T (pos (length T) k dd) (key T (pos (length T) k dd), v)) /\
         d_filled d' = d_filled d.
Proof.
  intros HR HG Hk (Ldd & Hstop & Hbefore) e fuel. revert e.
  assert (Hn : 0 < length T) by lia.
  induction fuel as [|fuel IH]; intros e He Hf; [lia|].
  cbn [probe_set]. assert (Lp : pos (length T) k e < length T) by (apply pos_lt; exact Hn).
  rewrite (dkey_RT d T _ HR Lp). cbn [obind].
  destruct (Nat.eq_dec e dd) as [->|Ne].
  - destruct (is_null (key T (pos (length T) k dd))) eqn:En.
    + destruct (put_key_RT d T _ k HR Lp) as (d1 & -> & R1 & F1). cbn [obind].
      assert (Lp1 : pos (length T) k dd < length (update T (pos (length T) k dd) (k, snd (at_ T (pos (length T) k dd)))))
        by (rewrite update_length; exact Lp).
      destruct (put_val_RT (set_filled d1 (S (d_filled d1))) _ _ v (set_filled_RT' _ _ _ R1) Lp1) as (d2 & -> & R2 & F2).
      eexists; split; [reflexivity|]. rewrite update_update in R2.
      unfold key at 1 in R2. rewrite at_update_eq in R2 by exact Lp. split; [exact R2|].
      rewrite F2. cbn [set_filled d_filled]. rewrite F1. reflexivity.
    + rewrite h_eq by (auto; apply HG; exact En). cbn [obind].
      destruct Hstop as [X|X]; [discriminate|]. rewrite X.
      destruct (put_val_RT d T _ v HR Lp) as (d2 & -> & R2 & F2).
      eexists; split; [reflexivity|]. auto.
  - destruct (Hbefore e ltac:(lia)) as [B1 B2].
    unfold nn in B1. rewrite B1. rewrite h_eq by (auto; apply HG; exact B1). cbn [obind]. rewrite B2.
    cbv zeta. destruct HR as (Hb & Hks & Hvs).
    rewrite Hb, pos_S by exact Hn.
    destruct (pos (length T) k (S e) =? pos (length T) k 0) eqn:Ew.
    + apply Nat.eqb_eq in Ew. apply pos_inj in Ew; lia.
    + apply IH; lia.
Qed.

(* DictSet when it does not grow *)
Lemma dict_set_nogrow f d T k v dd :
  RT' d T -> goodkeys T -> P k -> stops T k dd -> d_filled d < length T / 2 ->
  exists d', dict_set_f place h (S f) d k v = Ok d' /\
    if is_null (key T (pos (length T) k dd))
    then RT' d' (update T (pos (length T) k dd) (k, v)) /\ d_filled d' = S (d_filled d)
    else RT' d' (update T (pos (length T) k dd) (key T (pos (length T) k dd), v)) /\
         d_filled d' = d_filled d.
Proof.
  intros HR HG Hk Hst Hl. pose proof HR as (Hb & _). pose proof Hst as (Ldd & _).
  cbn [dict_set_f]. rewrite Hb.
  replace (length T / 2 <=? d_filled d) with false by (symmetry; apply Nat.leb_gt; exact Hl).
  cbn [obind]. rewrite (h_hash k Hk). cbn [obind].
  rewrite (home_RT d T k HR) by lia. cbn [obind]. rewrite Hb.
  rewrite <- pos_0 by lia. apply probe_set_exec; auto; lia.
Qed.

(* inserting or replacing: the effect on the map *)
Definition entry_set (m : list slot) (k v : value) : list slot :=
  if existsb (fun e => eqb (fst e) k) m
  then map (fun e => if eqb (fst e) k then (fst e, v) else e) m
  else m ++ [(k, v)].

Lemma set_small f d T k v :
  RT d T -> Inv T -> P k -> length (entries T) < length T / 2 ->
  exists d' T', dict_set_f place h (S f) d k v = Ok d' /\ RT d' T' /\ Inv T' /\
    Permutation (entries T') (entry_set (entries T) k v) /\ length T' = length T.
Proof.
  intros HR HI Hk Hl. pose proof (RT_RT' _ _ HR) as HR'. destruct HR as (_ & Hf & _).
  assert (H2 : 2 * S (length (entries T)) <= length T).
  { pose proof (Nat.div_mod (length T) 2 ltac:(lia)). lia. }
  destruct (stops_exists T k) as (dd & Hst); [lia|].
  destruct (dict_set_nogrow f d T k v dd HR' (inv_good T HI) Hk Hst ltac:(rewrite Hf; exact Hl))
    as (d' & E & R).
  exists d'. destruct (is_null (key T (pos (length T) k dd))) eqn:En.
  - destruct R as [R F].
    destruct (inv_insert T k v dd HI Hk Hst En H2) as [I' Pe].
    eexists. split; [exact E|]. split; [|split; [exact I'|split]].
    + destruct R as (A & B & C). unfold RT. rewrite (Permutation_length Pe). simpl length.
      rewrite F, Hf. auto.
    + unfold entry_set.
      assert (X : existsb (fun e => eqb (fst e) k) (entries T) = false).
      { destruct (existsb _ _) eqn:Ex; [|reflexivity]. exfalso.
        apply existsb_exists in Ex as (x & Hx & Hxe).
        apply in_entries in Hx as (i & Li & Ai & Ni).
        pose proof (stops_absent T k dd HI Hk Hst En i Ni) as Ab.
        unfold key in Ab. rewrite Ai in Ab. congruence. }
      rewrite X, Pe. apply Permutation_cons_append.
    + apply update_length.
  - destruct R as [R F].
    assert (He : eqb (key T (pos (length T) k dd)) k = true).
    { destruct Hst as (_ & [X|X] & _); [congruence|exact X]. }
    destruct (inv_replace T k v dd HI Hk Hst En He) as [I' Pe].
    eexists. split; [exact E|]. split; [|split; [exact I'|split]].
    + destruct R as (A & B & C). unfold RT. rewrite Pe, map_length. rewrite F, Hf. auto.
    + rewrite Pe. unfold entry_set.
      assert (X : existsb (fun e => eqb (fst e) k) (entries T) = true).
      { apply existsb_exists. exists (at_ T (pos (length T) k dd)). split; [|exact He].
        apply in_entries. eexists; split; [|split; [reflexivity|exact En]].
        apply pos_lt. apply (inv_pos T HI). }
      rewrite X. reflexivity.
    + apply update_length.
Qed.

Lemma entries_firstn_S T i : i < length T ->
  entries (firstn (S i) T) = entries (firstn i T) ++ ent1 (at_ T i).
Proof.
  intros H. rewrite (firstn_S_nth i T (at_ T i)) by (apply nth_error_at; exact H).
  rewrite entries_app. f_equal. rewrite entries_cons. simpl. apply app_nil_r.
Qed.

Lemma entries_firstn_le T i : length (entries (firstn i T)) <= length (entries T).
Proof.
  rewrite <- (firstn_skipn i T) at 2. rewrite entries_app, app_length. lia.
Qed.

(* the loop of Grow *)
Lemma grow_loop_exec f d T : RT d T -> Inv T ->
  forall m i nd U, i + m = length T ->
  RT nd U -> Inv U -> length U = 2 * length T -> Permutation (entries U) (entries (firstn i T)) ->
  exists nd' U', grow_loop (dict_set_f place h (S f)) d nd i m = Ok nd' /\ RT nd' U' /\ Inv U' /\
    length U' = 2 * length T /\ Permutation (entries U') (entries T).
Proof.
  intros HR HI. pose proof (RT_RT' _ _ HR) as HR'. pose proof (inv_pos T HI) as Hn.
  pose proof (inv_load T HI) as Hload.
  induction m as [|m IH]; intros i nd U Him RU IU LU PU.
  - exists nd, U. cbn [grow_loop]. repeat split; auto; try apply RU; try apply IU.
    rewrite firstn_all2 in PU by lia. exact PU.
  - cbn [grow_loop]. rewrite (dkey_RT d T i HR') by lia. cbn [obind].
    destruct (is_null (key T i)) eqn:En.
    + cbn [obind]. apply (IH (S i) nd U); auto; try lia.
      rewrite entries_firstn_S by lia. unfold ent1. unfold key in En. rewrite En, app_nil_r. exact PU.
    + rewrite (dval_RT d T i HR') by lia. cbn [obind].
      destruct (set_small f nd U (key T i) (snd (at_ T i)) RU IU) as (nd1 & U1 & E1 & R1 & I1 & P1 & L1).
      * apply (inv_good T HI). exact En.
      * rewrite (Permutation_length PU). rewrite LU.
        replace (2 * length T) with (length T * 2) by lia. rewrite Nat.div_mul by lia.
        pose proof (entries_firstn_le T i). lia.
      * rewrite E1. cbn [obind]. apply (IH (S i) nd1 U1); auto; try lia.
        rewrite P1, entries_firstn_S by lia. unfold ent1. unfold key in En. rewrite En.
        unfold entry_set.
        assert (X : existsb (fun e => eqb (fst e) (key T i)) (entries U) = false).
        { destruct (existsb _ _) eqn:Ex; [|reflexivity]. exfalso.
          apply existsb_exists in Ex as (x & Hx & Hxe).
          apply (Permutation_in _ PU) in Hx.
          apply in_entries in Hx as (j & Lj & Aj & Nj). rewrite firstn_length in Lj.
          assert (Aj' : at_ T j = x).
          { rewrite <- Aj. unfold at_. rewrite <- (firstn_skipn i T) at 1.
            rewrite app_nth1 by (rewrite firstn_length; lia). reflexivity. }
          assert (j = i); [|lia].
          apply (inv_uniq T HI); try lia.
          - unfold nn, key. rewrite Aj', <- Aj. exact Nj.
          - exact En.
          - unfold key at 1. rewrite Aj'. exact Hxe. }
        rewrite X. rewrite PU.
        assert (Y : at_ T i = (key T i, snd (at_ T i))) by (unfold key; destruct (at_ T i); reflexivity).
        rewrite <- Y. reflexivity.
Qed.

Lemma repeat_at n i : at_ (repeat empty_slot n) i = empty_slot.
Proof. unfold at_. revert i. induction n as [|n IH]; intros [|i]; simpl; auto. Qed.

Lemma entries_repeat n : entries (repeat empty_slot n) = [].
Proof. induction n; simpl; auto. Qed.

Lemma empty_inv n : 0 < n -> Inv (repeat empty_slot n).
Proof.
  intros H. constructor.
  - rewrite repeat_length. exact H.
  - intros i Hi. unfold nn, key in Hi. rewrite repeat_at in Hi. discriminate.
  - intros i j _ _ Hi. unfold nn, key in Hi. rewrite repeat_at in Hi. discriminate.
  - intros i _ Hi. unfold nn, key in Hi. rewrite repeat_at in Hi. discriminate.
  - rewrite entries_repeat. simpl. lia.
Qed.

Lemma map_repeat' {A B} (f : A -> B) x n : map f (repeat x n) = repeat (f x) n.
Proof. induction n; simpl; congruence. Qed.

Lemma init_dict_RT n : 0 < n ->
  exists d, init_dict_n n = Ok d /\ RT d (repeat empty_slot n).
Proof.
  intros Hn. unfold init_dict_n.
  assert (X : exists a, array_resize init_array (Z.of_nat n) VNull = Ok a /\
                        Rarr a true (repeat VNull n)).
  { destruct (resize_R init_array false [] (Z.of_nat n) VNull) as (a & E & R).
    - split; reflexivity.
    - simpl. destruct (Z.of_nat n <? 0)%Z; [reflexivity|]. simpl.
      destruct (Z.of_nat n <=? 0)%Z eqn:E; [apply Z.leb_le in E; lia|reflexivity].
    - lia.
    - exists a. split; [exact E|]. rewrite Nat2Z.id, firstn_nil in R. simpl in R.
      rewrite Nat.sub_0_r in R.
      replace (0 <? Z.of_nat n)%Z with true in R by (symmetry; apply Z.ltb_lt; lia). exact R. }
  destruct X as (a & -> & R). simpl. eexists; split; [reflexivity|].
  unfold RT. simpl. rewrite repeat_length, entries_repeat, !map_repeat'. auto.
Qed.

Lemma grow_exec f d T : RT d T -> Inv T ->
  exists d' T', grow_with (dict_set_f place h (S f)) d = Ok d' /\ RT d' T' /\ Inv T' /\
    length T' = 2 * length T /\ Permutation (entries T') (entries T).
Proof.
  intros HR HI. pose proof (inv_pos T HI) as Hn. pose proof HR as (Hb & _).
  unfold grow_with. rewrite Hb.
  destruct (init_dict_RT (2 * length T) ltac:(lia)) as (nd & -> & Rn). cbn [obind].
  destruct (grow_loop_exec f d T HR HI (length T) 0 nd (repeat empty_slot (2 * length T)))
    as (d' & T' & E & R' & I' & L' & P'); auto.
  - apply empty_inv. lia.
  - apply repeat_length.
  - rewrite entries_repeat. reflexivity.
  - exists d', T'. auto.
Qed.

(* DictSet *)
Lemma dict_set_exec d T k v : RT d T -> Inv T -> P k -> 2 <= length T ->
  exists d' T', dict_set place h d k v = Ok d' /\ RT d' T' /\ Inv T' /\
    Permutation (entries T') (entry_set (entries T) k v) /\ 2 <= length T'.
Proof.
  intros HR HI Hk H2. pose proof HR as (Hb & Hf & _). pose proof (inv_load T HI) as Hload.
  unfold dict_set. destruct (d_buckets d / 2 <=? d_filled d) eqn:E.
  - destruct (grow_exec 1 d T HR HI) as (d1 & T1 & E1 & R1 & I1 & L1 & P1).
    assert (Small : length (entries T1) < length T1 / 2).
    { rewrite L1, (Permutation_length P1). replace (2 * length T) with (length T * 2) by lia.
      rewrite Nat.div_mul by lia. lia. }
    destruct (set_small 2 d1 T1 k v R1 I1 Hk Small) as (d2 & T2 & E2 & R2 & I2 & P2 & L2).
    exists d2, T2.
    assert (Eq : dict_set_f place h 3 d k v = dict_set_f place h 3 d1 k v).
    { change (dict_set_f place h 3 d k v) with
        (d0 <- (if d_buckets d / 2 <=? d_filled d then grow_with (dict_set_f place h 2) d else Ok d) ;;
         hs <- hash_value place h k ;; i <- home d0 hs ;;
         probe_set h (grow_with (dict_set_f place h 2)) (S (d_buckets d0)) d0 hs i i k v)%outcome.
      rewrite E, E1. cbn [obind].
      change (dict_set_f place h 3 d1 k v) with
        (d0 <- (if d_buckets d1 / 2 <=? d_filled d1 then grow_with (dict_set_f place h 2) d1 else Ok d1) ;;
         hs <- hash_value place h k ;; i <- home d0 hs ;;
         probe_set h (grow_with (dict_set_f place h 2)) (S (d_buckets d0)) d0 hs i i k v)%outcome.
      destruct R1 as (Hb1 & Hf1 & _). rewrite Hb1, Hf1.
      replace (length T1 / 2 <=? length (entries T1)) with false by (symmetry; apply Nat.leb_gt; exact Small).
      cbn [obind]. rewrite Hb1. reflexivity. }
    rewrite Eq, E2. repeat split; try apply R2; try apply I2; try lia.
    rewrite P2.
    (* entry_set respects permutation *)
    unfold entry_set.
    assert (Ex : existsb (fun e => eqb (fst e) k) (entries T1) = existsb (fun e => eqb (fst e) k) (entries T)).
    { apply bool_eq_iff. rewrite !existsb_exists.
      split; intros (x & Hx & Hxe); exists x; split; auto.
      - apply (Permutation_in _ P1); auto.
      - apply (Permutation_in _ (Permutation_sym P1)); auto. }
    rewrite Ex. destruct (existsb _ (entries T)).
    + apply Permutation_map. exact P1.
    + apply Permutation_app_tail. exact P1.
  - apply Nat.leb_gt in E. rewrite Hb, Hf in E.
    destruct (set_small 2 d T k v HR HI Hk E) as (d' & T' & E' & R' & I' & P' & L').
    exists d', T'. repeat split; auto; try apply R'; try apply I'; lia.
Qed.

(* DictGet *)
Lemma get_loop_exec d T k dd : RT' d T -> goodkeys T -> P k -> stops T k dd ->
  forall e fuel, e <= dd -> dd - e < fuel ->
  get_loop h fuel d (pos (length T) k e) (pos (length T) k 0) k =
  Ok (if is_null (key T (pos (length T) k dd)) then None
      else Some (snd (at_ T (pos (length T) k dd)))).
Proof.
  intros HR HG Hk (Ldd & Hstop & Hbefore) e fuel. revert e.
  assert (Hn : 0 < length T) by lia.
  induction fuel as [|fuel IH]; intros e He Hf; [lia|].
  cbn [get_loop]. assert (Lp : pos (length T) k e < length T) by (apply pos_lt; exact Hn).
  rewrite (dkey_RT d T _ HR Lp). cbn [obind].
  destruct (Nat.eq_dec e dd) as [->|Ne].
  - destruct (is_null (key T (pos (length T) k dd))) eqn:En; [reflexivity|].
    rewrite h_eq by (auto; apply HG; exact En). cbn [obind].
    destruct Hstop as [X|X]; [discriminate|]. rewrite X.
    rewrite (dval_RT d T _ HR Lp). reflexivity.
  - destruct (Hbefore e ltac:(lia)) as [B1 B2].
    unfold nn in B1. rewrite B1. rewrite h_eq by (auto; apply HG; exact B1). cbn [obind]. rewrite B2.
    cbv zeta. pose proof HR as (Hb & _). rewrite Hb, pos_S by exact Hn.
    destruct (pos (length T) k (S e) =? pos (length T) k 0) eqn:Ew.
    + apply Nat.eqb_eq in Ew. apply pos_inj in Ew; lia.
    + apply IH; lia.
Qed.

Lemma dict_get_exec d T k m : RT d T -> Inv T -> P k -> Permutation (entries T) m ->
  dict_get place h d k =
  Ok (match find (fun e => eqb (fst e) k) m with Some e => Some (snd e) | None => None end).
Proof.
  intros HR HI Hk HP. pose proof (RT_RT' _ _ HR) as HR'. pose proof (inv_pos T HI) as Hn.
  pose proof (inv_load T HI) as Hload. pose proof HR as (Hb & _).
  destruct (stops_exists T k) as (dd & Hst); [lia|].
  unfold dict_get. rewrite (h_hash k Hk). cbn [obind]. rewrite (home_RT d T k HR' Hn). cbn [obind].
  rewrite Hb, <- (pos_0 (length T) k Hn).
  pose proof Hst as (Ldd & Hstop & _).
  rewrite (get_loop_exec d T k dd HR' (inv_good T HI) Hk Hst 0 (S (length T))) by lia.
  f_equal. destruct (find (fun e => eqb (fst e) k) m) as [x|] eqn:Ef.
  - apply find_some in Ef as [Hin Hx]. apply (Permutation_in _ (Permutation_sym HP)) in Hin.
    apply in_entries in Hin as (i & Li & Ai & Ni).
    assert (X : i = pos (length T) k dd).
    { apply stops_found; auto. unfold key. rewrite Ai. exact Hx. }
    subst i. unfold nn in Ni. rewrite Ni, Ai. reflexivity.
  - destruct (is_null (key T (pos (length T) k dd))) eqn:En; [reflexivity|]. exfalso.
    destruct Hstop as [X|X]; [congruence|].
    assert (Hin : In (at_ T (pos (length T) k dd)) m).
    { apply (Permutation_in _ HP). apply in_entries. eexists; split; [|split; [reflexivity|exact En]].
      apply pos_lt; exact Hn. }
    apply (find_none _ _ Ef) in Hin. unfold key in X. congruence.
Qed.

(* DictRemove *)
Lemma remove_loop_exec T0 k N :
  Inv T0 -> P k -> N < length T0 ->
  is_null (key T0 (pos (length T0) k N)) = true ->
  (forall e, e < N -> nn T0 (pos (length T0) k e)) ->
  forall fuel j d T, RmInv T0 T k N j -> RT d T -> N - j < fuel ->
  exists d' T', remove_loop place h fuel d (pos (length T0) k j) k = Ok d' /\ RT d' T' /\ RmInv T0 T' k N N.
Proof.
  intros HI0 Hk HN HNul HNn. pose proof (inv_pos T0 HI0) as Hn.
  induction fuel as [|fuel IH]; intros j d T HRm HR Hf; [lia|].
  pose proof (RT_RT' _ _ HR) as HR'. pose proof (rm_len _ _ _ _ _ HRm) as L.
  pose proof (rm_j _ _ _ _ _ HRm) as Hj.
  assert (Lp : pos (length T0) k j < length T) by (rewrite L; apply pos_lt; exact Hn).
  cbn [remove_loop]. rewrite (dkey_RT d T _ HR' Lp). cbn [obind].
  destruct (Nat.eq_dec j N) as [->|Ne].
  - rewrite (rm_null T0 k N HN HNul T N HRm). eauto.
  - assert (HjN : j < N) by lia.
    pose proof (rm_here T0 k N HN HNn T j HRm HjN) as Hnn. unfold nn in Hnn. rewrite Hnn.
    assert (Pq : P (key T (pos (length T0) k j))) by (apply (rm_good _ _ _ _ _ HRm); exact Hnn).
    rewrite h_eq by auto. cbn [obind].
    pose proof HR as (Hb & Hfl & _).
    destruct (eqb (key T (pos (length T0) k j)) k) eqn:Eq.
    + (* drop *)
      destruct (put_key_RT d T _ VNull HR' Lp) as (d1 & -> & R1 & F1). cbn [obind].
      pose proof (rm_drop T0 k N HI0 Hk HN HNul HNn T j HRm HjN Eq) as HRm'.
      assert (R1' : RT (set_filled d1 (d_filled d1 - 1))
                       (update T (pos (length T0) k j) (VNull, snd (at_ T (pos (length T0) k j))))).
      { destruct R1 as (A & B & C). unfold RT. cbn [set_filled d_buckets d_filled d_keys d_values].
        rewrite F1, Hfl.
        pose proof (entries_update T (pos (length T0) k j) (VNull, snd (at_ T (pos (length T0) k j))) Lp) as E.
        unfold ent1 in E. unfold key in Hnn. rewrite Hnn in E. apply Permutation_length in E.
        simpl in E. repeat split; auto. simpl. lia. }
      destruct R1' as (Hb' & RR). pose proof (conj Hb' RR) as R1'. rewrite Hb', update_length, L, pos_S by exact Hn.
      apply (IH (S j) _ _ HRm' R1'). lia.
    + rewrite (h_hash _ Pq). cbn [obind].
      rewrite (home_RT d T (key T (pos (length T0) k j)) HR') by lia. cbn [obind]. rewrite L.
      destruct (hm (length T0) (key T (pos (length T0) k j)) =? pos (length T0) k j) eqn:Eh.
      * apply Nat.eqb_eq in Eh.
        pose proof (rm_keep T0 k N HI0 HN T j HRm HjN Eq Eh) as HRm'.
        cbn [obind]. rewrite Hb, L, pos_S by exact Hn. apply (IH (S j) _ _ HRm' HR). lia.
      * rewrite (dval_RT d T _ HR' Lp). cbn [obind].
        destruct (put_key_RT d T _ VNull HR' Lp) as (d1 & -> & R1 & F1). cbn [obind].
        destruct (rm_move T0 k N HI0 HN HNul HNn T j HRm HjN Eq) as (dd & Hst & Hnd & HRm' & Pe).
        set (p := pos (length T0) k j) in *. set (q := key T p) in *. set (v := snd (at_ T p)) in *.
        set (T1 := update T p (VNull, v)) in *.
        assert (L1 : length T1 = length T0) by (unfold T1; rewrite update_length; exact L).
        assert (G1 : goodkeys T1).
        { intros i Hi. assert (Ne' : i <> p).
          { intros ->. unfold nn, key, T1 in Hi. rewrite at_update_eq in Hi by exact Lp. discriminate. }
          unfold nn, key, T1 in *. rewrite at_update_ne in * by congruence.
          apply (rm_good _ _ _ _ _ HRm). exact Hi. }
        pose proof (inv_load T0 HI0) as Hload. pose proof (rm_load _ _ _ _ _ HRm) as Hle.
        assert (E1 : S (length (entries T1)) = length (entries T)).
        { pose proof (entries_update T p (VNull, v) Lp) as E. fold T1 in E. unfold ent1 in E.
          change (is_null (fst (at_ T p)) = false) in Hnn. rewrite Hnn in E. apply Permutation_length in E. simpl in E. lia. }
        unfold dict_set. destruct (dict_set_nogrow 2 (set_filled d1 (d_filled d1 - 1)) T1 q v dd
                    (set_filled_RT' _ _ _ R1) G1 Pq Hst) as (d2 & -> & R2).
        { cbn [set_filled d_filled]. rewrite F1, Hfl, L1.
          pose proof (Nat.div_mod (length T0) 2 ltac:(lia)).
          pose proof (Nat.mod_upper_bound (length T0) 2 ltac:(lia)). lia. }
        cbn [obind]. rewrite L1 in R2. rewrite Hnd in R2. destruct R2 as [R2 F2].
        set (T2 := update T1 (pos (length T0) q dd) (q, v)) in *.
        assert (R2' : RT d2 T2).
        { destruct R2 as (A & B & C). unfold RT. rewrite (Permutation_length Pe), F2.
          cbn [set_filled d_filled]. rewrite F1, Hfl. repeat split; auto. lia. }
        destruct R2' as (Hb2 & RR). pose proof (conj Hb2 RR) as R2'.
        rewrite Hb2. replace (length T2) with (length T0) by (unfold T2; rewrite update_length; auto).
        unfold p. rewrite pos_S by exact Hn.
        apply (IH (S j) _ _ HRm' R2'). lia.
Qed.

Lemma dict_remove_exec d T k : RT d T -> Inv T -> P k ->
  exists d' T', dict_remove place h d k = Ok d' /\ RT d' T' /\ Inv T' /\ length T' = length T /\
    Permutation (entries T') (filter (fun e => negb (eqb (fst e) k)) (entries T)).
Proof.
  intros HR HI Hk. pose proof (inv_pos T HI) as Hn. pose proof HR as (Hb & _).
  pose proof (inv_load T HI) as Hload.
  destruct (exists_null T) as (z & Lz & Nz); [lia|].
  destruct (pos_surj (length T) k z Hn Lz) as (dz & Ldz & Edz).
  destruct (least_below (fun d => is_null (key T (pos (length T) k d))) (length T)) as (N & HN & Q & Lst).
  { exists dz. rewrite Edz. auto. }
  unfold dict_remove. rewrite (h_hash k Hk). cbn [obind].
  rewrite (home_RT d T k (RT_RT' _ _ HR) Hn). cbn [obind]. rewrite Hb, <- (pos_0 (length T) k Hn).
  destruct (remove_loop_exec T k N HI Hk HN Q Lst (S (length T)) 0 d T (rm_init T k N HI HN) HR ltac:(lia))
    as (d' & T' & E & R' & Rm).
  exists d', T'. split; [exact E|]. split; [exact R'|].
  destruct (rm_final T k N HI Hk HN Q T' Rm) as [I' P']. split; [exact I'|].
  split; [apply (rm_len _ _ _ _ _ Rm)|exact P'].
Qed.

End Heap.

(* DictClear *)
Lemma clear_loop_exec d T : RT' d T ->
  forall m i dc A, i + m = length T -> length A = i ->
  RT' dc (A ++ skipn i T) -> (forall e, In e A -> e = empty_slot) ->
  exists d', clear_loop dc i m = Ok d' /\ RT' d' (repeat empty_slot (length T)).
Proof.
  intros HR. induction m as [|m IH]; intros i dc A Him LA Rc HA.
  - cbn [clear_loop]. exists dc. split; [reflexivity|].
    rewrite skipn_all2, app_nil_r in Rc by lia.
    assert (A = repeat empty_slot (length T)).
    { replace (length T) with (length A) by lia. clear - HA.
      induction A as [|a A IHA]; [reflexivity|]. simpl. rewrite (HA a) by (left; reflexivity).
      f_equal. apply IHA. intros e He. apply HA. right; exact He. }
    subst A. exact Rc.
  - cbn [clear_loop].
    assert (LL : length (A ++ skipn i T) = length T) by (rewrite app_length, skipn_length; lia).
    assert (Li : i < length (A ++ skipn i T)) by lia.
    destruct (put_key_RT dc _ i VNull Rc Li) as (d1 & -> & R1 & _). cbn [obind].
    assert (Li1 : i < length (update (A ++ skipn i T) i (VNull, snd (at_ (A ++ skipn i T) i))))
      by (rewrite update_length; exact Li).
    destruct (put_val_RT d1 _ i VNull R1 Li1) as (d2 & -> & R2 & _). cbn [obind].
    apply (IH (S i) d2 (A ++ [empty_slot])).
    + lia.
    + rewrite app_length. simpl. lia.
    + rewrite update_update in R2. unfold key in R2. rewrite at_update_eq in R2 by exact Li.
      cbn [fst] in R2. rewrite update_split in R2 by exact Li.
      rewrite firstn_app in R2. rewrite firstn_all2 in R2 by lia.
      replace (i - length A) with 0 in R2 by lia. cbn [firstn] in R2. rewrite app_nil_r in R2.
      rewrite skipn_app in R2. rewrite skipn_all2 in R2 by lia.
      replace (S i - length A) with 1 in R2 by lia. cbn [app] in R2.
      rewrite <- app_assoc. cbn [app]. 
      assert (SS : skipn 1 (skipn i T) = skipn (S i) T).
      { clear. revert i. induction T as [|t T IHT]; intros [|i]; try reflexivity.
        simpl. destruct T; [destruct i; reflexivity|]. apply (IHT i). }
      rewrite SS in R2. exact R2.
    + intros e He. apply in_app_or in He as [He|[He|[]]]; auto.
Qed.

Lemma dict_clear_exec d T : RT d T -> Inv T ->
  exists d', dict_clear d = Ok d' /\ RT d' (repeat empty_slot (length T)).
Proof.
  intros HR HI. pose proof (RT_RT' _ _ HR) as HR'. pose proof HR as (Hb & _).
  unfold dict_clear. rewrite Hb.
  destruct (clear_loop_exec d T HR' (length T) 0 d [] ltac:(lia) eq_refl HR') as (d' & -> & R').
  { intros e []. }
  cbn [obind]. eexists; split; [reflexivity|]. destruct R' as (A & B & C).
  unfold RT. cbn [set_filled d_buckets d_filled d_keys d_values].
  rewrite entries_repeat. auto.
Qed.

Lemma enum_exec d T : RT' d T ->
  forall m i, i + m = length T -> enum_loop d i m = Ok (entries (skipn i T)).
Proof.
  intros HR. induction m as [|m IH]; intros i Him.
  - cbn [enum_loop]. rewrite skipn_all2 by lia. reflexivity.
  - cbn [enum_loop]. rewrite (dkey_RT d T i HR) by lia. cbn [obind].
    assert (E : skipn i T = at_ T i :: skipn (S i) T).
    { rewrite (split_at T i) at 1 by lia. rewrite skipn_app.
      assert (Lf : length (firstn i T) = i) by (rewrite firstn_length; lia).
      rewrite (skipn_all2 (firstn i T)) by lia. rewrite Lf, Nat.sub_diag. reflexivity. }
    rewrite E, entries_cons. unfold ent1. destruct (is_null (key T i)) eqn:En.
    + unfold key in En. rewrite En. simpl. apply IH. lia.
    + rewrite (dval_RT d T i HR) by lia. cbn [obind]. rewrite (IH (S i)) by lia. cbn [obind].
      unfold key in *. rewrite En. cbn [app]. destruct (at_ T i); reflexivity.
Qed.

End Tab.
