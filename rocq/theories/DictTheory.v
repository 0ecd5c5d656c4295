(** * A dict is a finite map: the history theorem *)
From Coq Require Import Permutation.
From Verif Require Import Base Float64 Values ValuesSpec ValuesProofs Array ArraySpec ArrayProofs
  Dict DictSpec DictProofs.
Local Open Scope nat_scope.

(** ** Contents determine equality and hash *)

Lemma same_content_str h h' k : same_content h h' k -> str_content h' k = str_content h k.
Proof.
  destruct k; simpl; try reflexivity. intros (m & m' & s & -> & ->). reflexivity.
Qed.

Lemma same_content_addr h h' k : same_content h h' k -> to_addr h' k = to_addr h k.
Proof.
  destruct k; simpl; try reflexivity. intros (m & m' & a & p & -> & ->). reflexivity.
Qed.

Lemma same_content_eq h h' a b : same_content h h' a -> same_content h h' b ->
  values_equal h' a b = values_equal h a b.
Proof.
  intros Ha Hb. pose proof (same_content_str _ _ _ Ha). pose proof (same_content_str _ _ _ Hb).
  pose proof (same_content_addr _ _ _ Ha). pose proof (same_content_addr _ _ _ Hb).
  unfold values_equal. destruct a, b; try reflexivity;
    repeat match goal with H : _ = _ |- _ => rewrite H; clear H end; reflexivity.
Qed.

Lemma same_content_hash place h h' k : same_content h h' k ->
  hash_value place h' k = hash_value place h k.
Proof.
  intros H. unfold hash_value. rewrite (same_content_str _ _ _ H), (same_content_addr _ _ _ H).
  reflexivity.
Qed.

(** ** Keys of the history *)
Definition good_key (h0 : heap) (k : value) : Prop :=
  hashable h0 k = true /\ same_content h0 h0 k.

Lemma good_live_eq h0 a b : good_key h0 a -> good_key h0 b ->
  exists t, values_equal h0 a b = Ok t.
Proof.
  intros [A1 A2] [B1 B2]. unfold values_equal.
  destruct a; simpl in A1, A2; try discriminate; destruct b; simpl in B1, B2; try discriminate; eauto; simpl;
   repeat match goal with H : exists _, _ |- _ => destruct H as [? H] | H : _ /\ _ |- _ => destruct H end;
   repeat match goal with H : hget _ _ = _ |- _ => rewrite H; clear H end; eauto.
Qed.

Lemma good_values_equal h0 a b : good_key h0 a -> good_key h0 b ->
  values_equal h0 a b = Ok (same_key h0 a b).
Proof.
  intros A B. destruct (good_live_eq h0 a b A B) as [t E]. unfold same_key. rewrite E.
  destruct t; reflexivity.
Qed.

Lemma same_key_true h0 a b : same_key h0 a b = true <-> values_equal h0 a b = Ok true.
Proof.
  unfold same_key. destruct (values_equal h0 a b) as [[]| | |]; split; congruence.
Qed.

Lemma same_key_sym h0 a b : same_key h0 a b = same_key h0 b a.
Proof. unfold same_key. rewrite values_equal_sym_L. reflexivity. Qed.

Lemma same_key_trans h0 a b c :
  same_key h0 a b = true -> same_key h0 b c = true -> same_key h0 a c = true.
Proof. rewrite !same_key_true. apply values_equal_trans_L. Qed.

Lemma same_key_refl h0 a : good_key h0 a -> same_key h0 a a = true.
Proof.
  intros [A1 A2]. apply same_key_true.
  destruct a; simpl in A1; try discriminate; try (apply values_equal_refl_L; [exact I|discriminate]).
  - simpl in A2. destruct A2 as (m & _ & s & A & _).
    apply values_equal_refl_L; [simpl; eauto|discriminate].
  - simpl in A2. destruct A2 as (m & _ & x & p & A & _).
    apply values_equal_refl_L; [simpl; eauto|discriminate].
  - simpl. rewrite Nat.eqb_refl. reflexivity.
Qed.

Lemma good_hash place h0 k : good_key h0 k -> exists z, hash_value place h0 k = Ok z.
Proof.
  intros [A1 A2]. destruct k; simpl in A1; try discriminate; try (simpl; eauto; fail).
  - destruct A2 as (m & _ & s & A & _). simpl. rewrite A. eauto.
  - destruct A2 as (m & _ & x & p & A & _). simpl in *. rewrite A in *.
    destruct (x =? 0)%Z; [discriminate|eauto].
  - simpl. destruct (addr =? 0)%Z; [discriminate|eauto].
Qed.

Lemma bad_hash place h0 k : hashable h0 k = false -> same_content h0 h0 k ->
  hash_value place h0 k = Abort.
Proof.
  intros A1 A2. destruct k; simpl in A1; try discriminate; try reflexivity.
  - destruct A2 as (m & _ & x & p & A & _). simpl in *. rewrite A in *.
    destruct (x =? 0)%Z; [reflexivity|discriminate].
  - simpl. destruct (addr =? 0)%Z; [reflexivity|discriminate].
Qed.

Lemma dict_set_unfold place h f d k v :
  dict_set_f place h (S f) d k v =
  (d1 <- (if d_buckets d / 2 <=? d_filled d then grow_with (dict_set_f place h f) d else Ok d) ;;
   hash <- hash_value place h k ;;
   i <- home d1 hash ;;
   probe_set h (grow_with (dict_set_f place h f)) (S (d_buckets d1)) d1 hash i i k v)%outcome.
Proof. reflexivity. Qed.

Section History.
Variable place : nat -> Z.
Variable h0 : heap.
Variable os0 : list (heap * dop).

Definition P (k : value) : Prop :=
  good_key h0 k /\ forall h' o', In (h', o') os0 -> same_content h0 h' k.

Definition hsh (k : value) : Z := match hash_value place h0 k with Ok z => z | _ => 0%Z end.

Let eqb := same_key h0.

Lemma P_sym a b : P a -> P b -> eqb a b = eqb b a.
Proof. intros _ _. apply same_key_sym. Qed.
Lemma P_trans a b c : P a -> P b -> P c -> eqb a b = true -> eqb b c = true -> eqb a c = true.
Proof. intros _ _ _. apply same_key_trans. Qed.
Lemma P_refl a : P a -> eqb a a = true.
Proof. intros [A _]. apply same_key_refl. exact A. Qed.
Lemma P_hash a b : P a -> P b -> eqb a b = true -> hsh a = hsh b.
Proof.
  intros _ _ E. apply same_key_true in E. unfold hsh.
  rewrite (hash_respects_L place _ _ _ E). reflexivity.
Qed.
Lemma P_nonnull a : P a -> is_null a = false.
Proof. intros [[A _] _]. destruct a; try reflexivity. discriminate. Qed.

Lemma P_eq h' o' : In (h', o') os0 -> forall a b, P a -> P b -> values_equal h' a b = Ok (eqb a b).
Proof.
  intros Hin a b [A1 A2] [B1 B2]. rewrite (same_content_eq h0 h') by eauto.
  apply good_values_equal; auto.
Qed.
Lemma P_hv h' o' : In (h', o') os0 -> forall a, P a -> hash_value place h' a = Ok (hsh a).
Proof.
  intros Hin a [A1 A2]. rewrite (same_content_hash place h0 h') by eauto.
  unfold hsh. destruct (good_hash place h0 a A1) as [z ->]. reflexivity.
Qed.

Lemma stable_P h' o' k : keys_stable h0 os0 -> In (h', o') os0 -> op_key o' = Some k ->
  hashable h0 k = true -> P k.
Proof.
  intros HS Hin Hk Hh.
  assert (X : forall h2 o2, In (h2, o2) os0 -> same_content h0 h2 k) by (intros h2 o2 H2; exact (HS h' o' k h2 o2 Hin Hk H2)).
  split; [|exact X]. split; [exact Hh|].
  specialize (X _ _ Hin). clear - X. destruct k; simpl in *; auto.
  - destruct X as (m & _ & s & A & _). eauto.
  - destruct X as (m & _ & x & p & A & _). eauto 6.
Qed.

Lemma perm_existsb {A} (f : A -> bool) l l' : Permutation l l' -> existsb f l = existsb f l'.
Proof.
  intros H. induction H; simpl; try congruence.
  destruct (f x), (f y); reflexivity.
Qed.

Lemma perm_filter {A} (f : A -> bool) l l' : Permutation l l' -> Permutation (filter f l) (filter f l').
Proof.
  intros H. induction H; simpl.
  - constructor.
  - destruct (f x); [apply perm_skip|]; assumption.
  - destruct (f x), (f y); try apply perm_swap; reflexivity.
  - etransitivity; eassumption.
Qed.

Lemma m_set_perm m m' k v : Permutation m m' -> Permutation (m_set h0 m k v) (m_set h0 m' k v).
Proof.
  intros H. unfold m_set. rewrite (perm_existsb _ _ _ H). destruct (existsb _ m').
  - apply Permutation_map. exact H.
  - apply Permutation_app_tail. exact H.
Qed.

Definition Rd (d : dict) (m : fmap) : Prop :=
  exists T, RT d T /\ Inv eqb hsh P T /\ Permutation (entries T) m /\ 2 <= length T.

Lemma dict_run_map os : incl os os0 -> keys_stable h0 os0 -> forall d m, Rd d m ->
  match map_run h0 m (map snd os) with
  | Some (m', rs) => exists d', dict_run place d os = Ok (d', rs) /\ Rd d' m'
  | None => dict_run place d os = Abort
  end.
Proof.
  intros Hi HS. induction os as [|[h o] os IH]; intros d m HR.
  - simpl. eauto.
  - assert (Hin : In (h, o) os0) by (apply Hi; left; reflexivity).
    assert (Hi' : incl os os0) by (intros x Hx; apply Hi; right; exact Hx).
    specialize (IH Hi'). cbn [map snd map_run dict_run].
    destruct HR as (T & RT & HI & HP & L2).
    assert (Habort : forall k, op_key o = Some k -> hashable h0 k = false -> hash_value place h k = Abort).
    { intros k Ek Hh. assert (X : same_content h0 h k) by (exact (HS h o k h o Hin Ek Hin)).
      rewrite (same_content_hash place h0 h k X). apply bad_hash; [exact Hh|].
      destruct k; simpl in X |- *; auto.
      - destruct X as (m1 & _ & s & A & _). eauto.
      - destruct X as (m1 & _ & x & p & A & _). eauto 6. }
    assert (HPk : forall k, op_key o = Some k -> hashable h0 k = true -> P k)
      by (intros; eapply stable_P; eauto).
    pose proof (P_eq _ _ Hin) as Heq. pose proof (P_hv _ _ Hin) as Hhv.
    destruct o as [k v|k|k|]; cbn [map_step dict_step].
    + destruct (hashable h0 k) eqn:Hh.
      * pose proof (HPk k eq_refl Hh) as Pk.
        destruct (dict_set_exec eqb hsh P P_sym P_trans P_hash P_nonnull place h Heq Hhv d T k v
                    RT HI Pk L2) as (d' & T' & -> & RT' & I' & P' & L').
        cbn [obind]. specialize (IH d' (m_set h0 m k v)).
        assert (X : Rd d' (m_set h0 m k v)).
        { exists T'. split; [exact RT'|]. split; [exact I'|]. split; [|exact L']. rewrite P'.
          apply (m_set_perm _ _ k v HP). }
        specialize (IH X). destruct (map_run h0 (m_set h0 m k v) (map snd os)) as [[m' rs]|].
        -- destruct IH as (d2 & -> & R2). cbn [obind]. eauto.
        -- rewrite IH. reflexivity.
      * unfold dict_set. rewrite dict_set_unfold, (Habort k eq_refl Hh).
        destruct (d_buckets d / 2 <=? d_filled d); [|reflexivity].
        destruct (grow_exec eqb hsh P P_sym P_trans P_hash P_nonnull place h Heq Hhv 1 d T RT HI)
          as (d1 & T1 & -> & _). reflexivity.
    + destruct (hashable h0 k) eqn:Hh.
      * pose proof (HPk k eq_refl Hh) as Pk.
        rewrite (dict_get_exec eqb hsh P P_sym P_trans P_hash place h Heq Hhv d T k m RT HI Pk HP).
        cbn [obind]. specialize (IH d m).
        assert (X : Rd d m) by (exists T; auto).
        specialize (IH X). unfold m_get. fold eqb.
        destruct (map_run h0 m (map snd os)) as [[m' rs]|].
        -- destruct IH as (d2 & -> & R2). cbn [obind].
           destruct (find _ m); eauto.
        -- rewrite IH. reflexivity.
      * unfold dict_get. rewrite (Habort k eq_refl Hh). reflexivity.
    + destruct (hashable h0 k) eqn:Hh.
      * pose proof (HPk k eq_refl Hh) as Pk.
        destruct (dict_remove_exec eqb hsh P P_sym P_trans P_refl P_hash P_nonnull place h Heq Hhv d T k
                    RT HI Pk) as (d' & T' & -> & RT' & I' & L' & P').
        cbn [obind]. specialize (IH d' (m_remove h0 m k)).
        assert (X : Rd d' (m_remove h0 m k)).
        { exists T'. split; [exact RT'|]. split; [exact I'|]. split; [|lia]. rewrite P'.
          apply perm_filter. exact HP. }
        specialize (IH X). destruct (map_run h0 (m_remove h0 m k) (map snd os)) as [[m' rs]|].
        -- destruct IH as (d2 & -> & R2). cbn [obind]. eauto.
        -- rewrite IH. reflexivity.
      * unfold dict_remove. rewrite (Habort k eq_refl Hh). reflexivity.
    + destruct (dict_clear_exec eqb hsh P d T RT HI) as (d' & -> & RT').
      cbn [obind]. specialize (IH d' []).
      assert (X : Rd d' []).
      { exists (repeat empty_slot (length T)). split; [exact RT'|].
        split; [apply empty_inv; lia|]. rewrite entries_repeat, repeat_length. auto. }
      specialize (IH X). destruct (map_run h0 [] (map snd os)) as [[m' rs]|].
      * destruct IH as (d2 & -> & R2). cbn [obind]. eauto.
      * rewrite IH. reflexivity.
Qed.

Lemma entries_distinct T : Inv eqb hsh P T ->
  forall i j a b, nth_error (entries T) i = Some a -> nth_error (entries T) j = Some b ->
  eqb (fst a) (fst b) = true -> i = j.
Proof.
  intros HI. pose proof (inv_uniq _ _ _ T HI) as U. clear HI.
  assert (G : forall A, (forall i j, i < length A -> j < length A -> nn A i -> nn A j ->
              eqb (key A i) (key A j) = true -> i = j) ->
           forall i j a b, nth_error (entries A) i = Some a -> nth_error (entries A) j = Some b ->
           eqb (fst a) (fst b) = true -> i = j).
  { induction A as [|x A IH]; intros UA i j a b Ha Hb E.
    - simpl in Ha. destruct i; discriminate.
    - assert (UA' : forall i j, i < length A -> j < length A -> nn A i -> nn A j ->
              eqb (key A i) (key A j) = true -> i = j).
      { intros i' j' Li Lj Ni Nj Ee. assert (S i' = S j'); [|lia].
        apply UA; simpl; try lia; assumption. }
      assert (X : forall c n, nth_error (entries A) n = Some c -> is_null (fst x) = false ->
                 eqb (fst x) (fst c) = true -> False).
      { intros c n Hc Nx Ee. apply nth_error_In in Hc. apply in_entries in Hc as (q & Lq & Aq & Nq).
        assert (0 = S q); [|lia]. apply UA; simpl; try lia; auto.
        unfold key at 2. simpl. unfold at_ in *. simpl. rewrite Aq. exact Ee. }
      rewrite entries_cons in Ha, Hb. unfold ent1 in Ha, Hb.
      destruct (is_null (fst x)) eqn:Nx; cbn [app] in Ha, Hb; [eapply IH; eauto|].
      destruct i, j; simpl in Ha, Hb.
      + reflexivity.
      + injection Ha as <-. exfalso. eapply X; eauto.
      + injection Hb as <-. exfalso. eapply X; eauto. unfold eqb. rewrite same_key_sym. exact E.
      + f_equal. eapply IH; eauto. }
  apply G. exact U.
Qed.

Lemma perm_distinct m m' : Permutation m m' ->
  (forall e, In e m -> same_key h0 (fst e) (fst e) = true) ->
  distinct_keys h0 m -> distinct_keys h0 m'.
Proof.
  intros HP Hr HD i j a b Ha Hb E.
  apply Permutation_nth_error in HP as (L & f & Fi & Ff).
  rewrite Ff in Ha, Hb. apply Fi. eapply HD; eauto.
Qed.

Lemma Rd_facts d m : Rd d m ->
  exists l, dict_enum d = Ok l /\ Permutation l m /\ d_filled d = length m /\
        2 * d_filled d <= d_buckets d /\ distinct_keys h0 l /\ distinct_keys h0 m.
Proof.
  intros (T & RT & HI & HP & L2). pose proof RT as (Hb & Hf & _).
  exists (entries T). unfold dict_enum. rewrite Hb.
  rewrite (enum_exec d T (RT_RT' _ _ RT) (length T) 0) by lia. cbn [skipn].
  assert (D : distinct_keys h0 (entries T)).
  { intros i j a b. apply entries_distinct. exact HI. }
  repeat split; auto.
  - rewrite Hf. apply Permutation_length. exact HP.
  - rewrite Hf. apply (inv_load _ _ _ T HI).
  - eapply perm_distinct; eauto. intros e He. apply in_entries in He as (i & Li & Ai & Ni).
    rewrite <- Ai. apply P_refl. apply (inv_good _ _ _ T HI). exact Ni.
Qed.

End History.

Lemma dict_is_map_L place h0 os : keys_stable h0 os ->
  exists d0, init_dict = Ok d0 /\
  match map_run h0 [] (map snd os) with
  | Some (m, rs) =>
      exists d l, dict_run place d0 os = Ok (d, rs) /\
        dict_enum d = Ok l /\ Permutation l m /\ d_filled d = length m /\
        2 * d_filled d <= d_buckets d /\ distinct_keys h0 l /\ distinct_keys h0 m
  | None => dict_run place d0 os = Abort
  end.
Proof.
  intros HS. destruct (init_dict_RT 32 ltac:(lia)) as (d0 & E0 & R0).
  exists d0. split; [exact E0|].
  assert (X : Rd place h0 os d0 []).
  { exists (repeat empty_slot 32). split; [exact R0|]. split; [apply empty_inv; lia|].
    rewrite entries_repeat, repeat_length. split; [constructor|lia]. }
  pose proof (dict_run_map place h0 os os (incl_refl _) HS d0 [] X) as H.
  destruct (map_run h0 [] (map snd os)) as [[m rs]|]; [|exact H].
  destruct H as (d & E & R). destruct (Rd_facts place h0 os d m R) as (l & H).
  exists d, l. tauto.
Qed.
