From Verif Require Import Base Values Array ArraySpec.
Local Open Scope nat_scope.

Definition Rarr (a : array) (touched : bool) (l : list value) : Prop :=
  match a with
  | None => touched = false /\ l = []
  | Some b => touched = true /\ sb_n b = length l /\
              firstn (length l) (sb_cells b) = map Some l
  end.

Lemma Rarr_count a t l : Rarr a t l -> sb_count a = length l.
Proof. destruct a as [b|]; simpl; intros H; [tauto|]. destruct H as [_ ->]. reflexivity. Qed.

Lemma Rarr_cap b t l : Rarr (Some b) t l -> length l <= sb_cap b.
Proof.
  intros (_ & _ & H). unfold sb_cap.
  assert (E : length (firstn (length l) (sb_cells b)) = length l)
    by (rewrite H, map_length; reflexivity).
  rewrite firstn_length in E. lia.
Qed.

Lemma firstn_app_le {A} n (x y : list A) : n <= length x -> firstn n (x ++ y) = firstn n x.
Proof. intros H. rewrite firstn_app. replace (n - length x) with 0 by lia. simpl. apply app_nil_r. Qed.

(* growing keeps the elements *)
Lemma grow_R a t l inc :
  Rarr a t l -> Rarr (Some (sb_maybegrow a inc)) true l /\
                length l + inc <= sb_cap (sb_maybegrow a inc).
Proof.
  intros H. destruct a as [b|].
  - pose proof (Rarr_cap _ _ _ H) as Hc. simpl in H. destruct H as (Ht & Hn & Hf).
    unfold sb_maybegrow. destruct (sb_cap b <=? sb_n b + inc) eqn:E.
    + set (m := Nat.max (2 * sb_cap b) (sb_n b + inc)).
      assert (Hm : firstn m (sb_cells b) = sb_cells b)
        by (apply firstn_all2; unfold m, sb_cap in *; lia).
      split.
      * cbn [Rarr sb_grow sb_cells sb_n]. fold m. rewrite Hm. repeat split; auto.
        rewrite firstn_app_le by (unfold sb_cap in Hc; lia). exact Hf.
      * unfold sb_cap at 1. cbn [sb_grow sb_cells]. fold m. rewrite Hm, app_length, repeat_length.
        unfold sb_cap in *. lia.
    + apply Nat.leb_gt in E. split; [simpl; auto|lia].
  - simpl in H. destruct H as [Ht ->]. simpl. repeat split; auto.
    unfold sb_cap; simpl. rewrite repeat_length. lia.
Qed.

Lemma firstn_update_ge {A} n i (l : list A) x : n <= i -> firstn n (update l i x) = firstn n l.
Proof.
  revert n l. induction i as [|i IH]; intros n l H.
  - replace n with 0 by lia. reflexivity.
  - destruct l as [|y l]; [destruct n; reflexivity|].
    destruct n as [|n]; [reflexivity|]. unfold update in *; simpl. f_equal. apply IH. lia.
Qed.

Lemma firstn_S_nth {A} n (l : list A) x :
  nth_error l n = Some x -> firstn (S n) l = firstn n l ++ [x].
Proof.
  revert l; induction n as [|n IH]; intros [|y l] H; simpl in *; try discriminate.
  - injection H as ->. reflexivity.
  - f_equal. apply IH. exact H.
Qed.

Lemma nth_of_firstn {A} (cells : list (option A)) l i v :
  firstn (length l) cells = map Some l -> nth_error l i = Some v ->
  nth_error cells i = Some (Some v).
Proof.
  revert cells l; induction i as [|i IH]; intros [|c cells] [|x l] H Hn; simpl in *;
    try discriminate.
  - injection H as -> _. congruence.
  - injection H as _ H. eapply IH; eauto.
Qed.

Lemma firstn_update_in {A} (cells : list (option A)) l i v :
  firstn (length l) cells = map Some l -> i < length l ->
  firstn (length l) (update cells i (Some v)) =
  map Some (firstn i l ++ v :: skipn (S i) l).
Proof.
  revert cells l; induction i as [|i IH]; intros [|c cells] [|x l] H Hn; simpl in *;
    try discriminate; try lia.
  - injection H as -> H. rewrite H. reflexivity.
  - injection H as -> H. unfold update in *. simpl. f_equal. apply IH; auto; lia.
Qed.

Lemma write_cell_ok b i v : i < sb_cap b ->
  write_cell b i v = Ok (mkSb (update (sb_cells b) i (Some v)) (sb_n b)).
Proof. intros H. unfold write_cell. apply Nat.ltb_lt in H. rewrite H. reflexivity. Qed.

Lemma push_R a t l v :
  Rarr a t l -> exists a', array_push a v = Ok a' /\ Rarr a' true (l ++ [v]).
Proof.
  intros H. destruct (grow_R a t l 1 H) as [(H1 & Hn & Hf) H2]. unfold array_push.
  rewrite write_cell_ok by lia. simpl. eexists. split; [reflexivity|]. simpl.
  rewrite app_length. simpl. repeat split; auto; try lia.
  rewrite map_app. simpl.
  replace (length l + 1) with (S (length l)) by lia.
  rewrite (firstn_S_nth _ _ (Some v)).
  - rewrite Hn, firstn_update_ge by lia. rewrite Hf. reflexivity.
  - rewrite Hn. apply nth_error_update_eq. unfold sb_cap in H2. lia.
Qed.

Lemma index_ok_range a t l i : Rarr a t l -> index_ok a i = in_range l i.
Proof. intros H. unfold index_ok, in_range. rewrite (Rarr_count _ _ _ H). reflexivity. Qed.

Lemma in_range_lt l i : in_range l i = true -> Z.to_nat i < length l /\ (0 <= i)%Z.
Proof. unfold in_range. intros H. apply andb_prop in H as [H1 H2]. lia. Qed.

Lemma get_R a t l i v :
  Rarr a t l -> in_range l i = true -> nth_error l (Z.to_nat i) = Some v ->
  array_get a i = Ok v.
Proof.
  intros H Hi Hv. unfold array_get. rewrite (index_ok_range _ _ _ _ H), Hi.
  destruct a as [b|].
  - destruct H as (_ & _ & Hf). unfold read_cell.
    rewrite (nth_of_firstn _ _ _ _ Hf Hv). reflexivity.
  - destruct H as [_ ->]. destruct (Z.to_nat i); discriminate.
Qed.

Lemma set_R a t l i v :
  Rarr a t l -> in_range l i = true ->
  exists a', array_set a i v = Ok a' /\
    Rarr a' t (firstn (Z.to_nat i) l ++ v :: skipn (S (Z.to_nat i)) l).
Proof.
  intros H Hi. unfold array_set. rewrite (index_ok_range _ _ _ _ H), Hi.
  apply in_range_lt in Hi as [Hi _].
  destruct a as [b|].
  - pose proof (Rarr_cap _ _ _ H) as Hc. destruct H as (Ht & Hn & Hf).
    rewrite write_cell_ok by lia. cbn [obind]. eexists; split; [reflexivity|]. cbn [Rarr sb_n sb_cells].
    assert (L : length (firstn (Z.to_nat i) l ++ v :: skipn (S (Z.to_nat i)) l) = length l).
    { rewrite app_length, firstn_length. cbn [length]. rewrite skipn_length. lia. }
    rewrite L. repeat split; auto. apply firstn_update_in; auto.
  - destruct H as [_ ->]. simpl in Hi. lia.
Qed.

Lemma last_split {A} (l : list A) x r : rev l = x :: r -> l = rev r ++ [x].
Proof. intros H. rewrite <- (rev_involutive l), H. reflexivity. Qed.

Lemma nth_error_app_last {A} (l : list A) x : nth_error (l ++ [x]) (length l) = Some x.
Proof. rewrite nth_error_app2 by lia. rewrite Nat.sub_diag. reflexivity. Qed.

Lemma map_firstn {A B} (f : A -> B) n l : map f (firstn n l) = firstn n (map f l).
Proof. symmetry. apply firstn_map. Qed.

Lemma move_ok b dst src n : src + n <= sb_cap b -> dst + n <= sb_cap b ->
  move_cells b dst src n =
  Ok (mkSb (firstn dst (sb_cells b) ++ firstn n (skipn src (sb_cells b))
            ++ skipn (dst + n) (sb_cells b)) (sb_n b)).
Proof.
  intros H1 H2. unfold move_cells. apply Nat.leb_le in H1, H2. rewrite H1, H2. reflexivity.
Qed.

Lemma cells_split {A} (cells : list (option A)) l :
  firstn (length l) cells = map Some l -> cells = map Some l ++ skipn (length l) cells.
Proof. intros H. rewrite <- H. symmetry. apply firstn_skipn. Qed.

Lemma skipn_map_app {A} (cells rest : list (option A)) l i :
  i <= length l -> cells = map Some l ++ rest ->
  skipn i cells = map Some (skipn i l) ++ rest.
Proof.
  intros H ->. rewrite skipn_app, map_length. replace (i - length l) with 0 by lia.
  simpl. rewrite skipn_map. reflexivity.
Qed.

Lemma shift_R b t x l :
  Rarr (Some b) t (x :: l) ->
  exists a', array_shift (Some b) = Ok (a', x) /\ Rarr a' t l.
Proof.
  intros H. pose proof (Rarr_cap _ _ _ H) as Hc. destruct H as (Ht & Hn & Hf).
  unfold array_shift. simpl in Hn. rewrite Hn. simpl.
  unfold read_cell. rewrite (nth_of_firstn _ (x :: l) 0 x Hf eq_refl). simpl.
  simpl in Hc. rewrite move_ok by lia. simpl. eexists; split; [reflexivity|]. simpl.
  repeat split; auto; try lia.
  pose proof (cells_split _ _ Hf) as Hs. rewrite Hs. simpl.
  replace (length l - 0) with (length l) by lia.
  rewrite firstn_app_le.
  2:{ rewrite firstn_length, app_length, map_length. lia. }
  rewrite firstn_firstn, Nat.min_id.
  rewrite firstn_app_le by (rewrite map_length; lia).
  rewrite firstn_all2 by (rewrite map_length; lia). reflexivity.
Qed.

Lemma remove_R a t l i :
  Rarr a t l -> in_range l i = true ->
  exists a', array_remove a i = Ok a' /\
    Rarr a' t (firstn (Z.to_nat i) l ++ skipn (S (Z.to_nat i)) l).
Proof.
  intros H Hi. unfold array_remove. rewrite (index_ok_range _ _ _ _ H), Hi.
  apply in_range_lt in Hi as [Hi _]. set (k := Z.to_nat i) in *.
  destruct a as [b|].
  - pose proof (Rarr_cap _ _ _ H) as Hc. destruct H as (Ht & Hn & Hf).
    rewrite Hn. rewrite move_ok by lia. cbn [obind]. eexists; split; [reflexivity|].
    cbn [Rarr set_n sb_n sb_cells].
    assert (L : length (firstn k l ++ skipn (S k) l) = length l - 1).
    { rewrite app_length, firstn_length, skipn_length. lia. }
    rewrite L, Hn. repeat split; auto.
    pose proof (cells_split _ _ Hf) as Hs.
    rewrite (skipn_map_app _ _ l (S k) ltac:(lia) Hs).
    rewrite (firstn_app_le _ (map Some (skipn (S k) l))) by (rewrite map_length, skipn_length; lia).
    rewrite (firstn_all2 (map Some (skipn (S k) l))) by (rewrite map_length, skipn_length; lia).
    assert (E1 : firstn k (sb_cells b) = map Some (firstn k l)).
    { rewrite Hs, firstn_app_le by (rewrite map_length; lia). symmetry; apply map_firstn. }
    rewrite E1, app_assoc, <- map_app.
    rewrite firstn_app_le by (rewrite map_length, L; lia).
    apply firstn_all2. rewrite map_length, L. lia.
  - destruct H as [_ ->]. simpl in Hi. lia.
Qed.

Lemma insert_R a t l i v :
  Rarr a t l -> in_range l i = true ->
  exists a', array_insert a i v = Ok a' /\
    Rarr a' t (firstn (Z.to_nat i) l ++ v :: skipn (Z.to_nat i) l).
Proof.
  intros H Hi. unfold array_insert. rewrite (index_ok_range _ _ _ _ H), Hi.
  apply in_range_lt in Hi as [Hi _]. set (k := Z.to_nat i) in *.
  assert (Ht : t = true).
  { destruct a; [destruct H; auto|]. destruct H as [_ ->]. simpl in Hi. lia. }
  destruct (grow_R a t l 1 H) as [(_ & Hn & Hf) Hcap]. rewrite (Rarr_count _ _ _ H).
  unfold sb_add. set (g := sb_maybegrow a 1) in *.
  rewrite move_ok by (unfold sb_cap, set_n in *; simpl; lia).
  cbn [obind]. rewrite write_cell_ok.
  2:{ unfold sb_cap in *. cbn [sb_cells set_n]. rewrite !app_length, !firstn_length, !skipn_length. lia. }
  cbn [obind]. eexists; split; [reflexivity|].
  cbn [Rarr sb_n sb_cells set_n].
  assert (L : length (firstn k l ++ v :: skipn k l) = S (length l)).
  { rewrite app_length, firstn_length. cbn [length]. rewrite skipn_length. lia. }
  rewrite L. repeat split; auto; try lia.
  pose proof (cells_split _ _ Hf) as Hs.
  rewrite (skipn_map_app _ _ l k ltac:(lia) Hs).
  rewrite (firstn_app_le _ (map Some (skipn k l))) by (rewrite map_length, skipn_length; lia).
  rewrite (firstn_all2 (map Some (skipn k l))) by (rewrite map_length, skipn_length; lia).
  set (rest := skipn (S k + (length l - k)) (sb_cells g)).
  assert (X : exists c, firstn (S k) (sb_cells g) = map Some (firstn k l) ++ [c]).
  { destruct (nth_error (sb_cells g) k) as [c|] eqn:E.
    - exists c. rewrite (firstn_S_nth _ _ c E). f_equal.
      rewrite Hs, firstn_app_le by (rewrite map_length; lia). symmetry; apply map_firstn.
    - apply nth_error_None in E. unfold sb_cap in Hcap. lia. }
  destruct X as [c X]. rewrite X.
  assert (U : forall (p q : list (option value)) x y,
     update ((p ++ [x]) ++ q) (length p) y = p ++ [y] ++ q).
  { intros p q x y. unfold update. rewrite <- app_assoc. rewrite firstn_app, Nat.sub_diag, firstn_all.
    simpl. rewrite app_nil_r. f_equal. rewrite skipn_app, Nat.sub_diag, skipn_all. reflexivity. }
  assert (Lk : length (map Some (firstn k l)) = k)
    by (rewrite map_length, firstn_length; lia).
  specialize (U (map Some (firstn k l)) (map Some (skipn k l) ++ rest) c (Some v)).
  rewrite Lk in U. rewrite U.
  rewrite !app_assoc. rewrite firstn_app_le.
  2:{ rewrite !app_length, !map_length, firstn_length, skipn_length. simpl. lia. }
  rewrite firstn_all2.
  2:{ rewrite !app_length, !map_length, firstn_length, skipn_length. simpl. lia. }
  rewrite map_app. simpl. rewrite <- app_assoc. reflexivity.
Qed.

(** The resize loop started at cell 0 of an empty array. *)
Lemma resize_loop_ok b k i v l :
  sb_n b = i + k -> i + k <= sb_cap b ->
  firstn i (sb_cells b) = map Some l -> length l = i ->
  exists b', resize_loop b 0 i k v = Ok b' /\ sb_n b' = i + k /\
    firstn (i + k) (sb_cells b') = map Some (l ++ repeat v k).
Proof.
  revert b i l. induction k as [|k IH]; intros b i l Hn Hc Hf Hl.
  - exists b. simpl. rewrite Nat.add_0_r, app_nil_r in *. auto.
  - simpl. rewrite write_cell_ok by lia. simpl.
    destruct (IH (mkSb (update (sb_cells b) i (Some v)) (sb_n b)) (S i) (l ++ [v])) as (b' & E & N & F).
    + simpl. lia.
    + unfold sb_cap in *. simpl. rewrite update_length. lia.
    + cbn [sb_cells]. rewrite (firstn_S_nth _ _ (Some v)).
      * rewrite firstn_update_ge by lia. rewrite Hf, map_app. reflexivity.
      * apply nth_error_update_eq. unfold sb_cap in Hc. lia.
    + rewrite app_length. simpl. lia.
    + exists b'. split; [exact E|]. split; [lia|].
      replace (i + S k) with (S i + k) by lia. rewrite F, <- app_assoc. reflexivity.
Qed.

Lemma resize_R a t l n v :
  Rarr a t l -> op_supported t l (AResize n v) = true -> (0 <= n)%Z ->
  exists a', array_resize a n v = Ok a' /\
    Rarr a' (op_touches t l (AResize n v))
      (firstn (Z.to_nat n) l ++ repeat v (Z.to_nat n - length l)).
Proof.
  intros H Hs Hn. unfold array_resize. simpl in Hs.
  replace (n <? 0)%Z with false in * by (symmetry; apply Z.ltb_ge; lia). simpl in Hs.
  rewrite (Rarr_count _ _ _ H).
  destruct (n <=? Z.of_nat (length l))%Z eqn:E.
  - apply Z.leb_le in E.
    replace (length l <? Z.to_nat n) with false by (symmetry; apply Nat.ltb_ge; lia).
    subst t. destruct a as [b|]; [|destruct H; discriminate].
    eexists; split; [reflexivity|]. simpl. destruct H as (_ & N & F).
    replace (Z.to_nat n - length l) with 0 by lia. simpl. rewrite app_nil_r.
    rewrite firstn_length. replace (Nat.min (Z.to_nat n) (length l)) with (Z.to_nat n) by lia.
    repeat split; auto. rewrite map_firstn, <- F, firstn_firstn. f_equal. lia.
  - apply Z.leb_gt in E. apply Nat.eqb_eq in Hs. destruct l; [|discriminate]. simpl in *.
    replace (0 <? Z.to_nat n) with true by (symmetry; apply Nat.ltb_lt; lia).
    replace (0 <? n)%Z with true by (symmetry; apply Z.ltb_lt; lia). rewrite orb_true_r.
    rewrite Nat.sub_0_r.
    destruct (grow_R a t [] (Z.to_nat n) H) as [(_ & N & F) Hc]. simpl in *.
    set (g := sb_maybegrow a (Z.to_nat n)) in *.
    unfold sb_add. fold g. rewrite N. simpl.
    destruct (resize_loop_ok (set_n g (Z.to_nat n)) (Z.to_nat n) 0 v []) as (b' & Eb & Nb & Fb);
      simpl; auto.
    rewrite Eb. simpl. eexists; split; [reflexivity|]. simpl in *.
    rewrite firstn_nil. simpl. rewrite repeat_length. auto.
Qed.

Theorem array_step_sim a t l o :
  Rarr a t l -> op_supported t l o = true ->
  match list_step l o with
  | None => array_step a o = Abort
  | Some (l', r) => exists a', array_step a o = Ok (a', r) /\ Rarr a' (op_touches t l o) l'
  end.
Proof.
  intros H Hs. destruct o as [v| | |i v|i|i v|i|n v| |]; cbn [list_step array_step op_touches].
  - destruct (push_R a t l v H) as (a' & -> & H'). simpl. eauto.
  - (* pop *)
    destruct (rev l) as [|x r] eqn:E.
    + apply (f_equal (@rev value)) in E. rewrite rev_involutive in E. simpl in E. subst l.
      destruct a as [b|]; [|reflexivity]. destruct H as (_ & N & _). simpl in *.
      rewrite N. reflexivity.
    + apply last_split in E. subst l. destruct a as [b|].
      * destruct H as (Ht & N & F). rewrite app_length in *. simpl in N. simpl.
        replace (0 <? sb_n b) with true by (symmetry; apply Nat.ltb_lt; lia).
        unfold read_cell. replace (sb_n b - 1) with (length (rev r)) by lia.
        rewrite <- (app_length (rev r) [x]) in F.
        rewrite (nth_of_firstn _ (rev r ++ [x]) (length (rev r)) x F (nth_error_app_last _ _)).
        simpl. eexists; split; [reflexivity|]. simpl. repeat split; auto.
        rewrite map_app in F. apply (f_equal (firstn (length (rev r)))) in F.
        rewrite firstn_firstn in F. rewrite app_length in F.
        replace (Nat.min (length (rev r)) (length (rev r) + length [x])) with (length (rev r)) in F by lia.
        rewrite F. rewrite firstn_app_le by (rewrite map_length; lia).
        apply firstn_all2. rewrite map_length. lia.
      * destruct H as [_ H]. destruct (rev r); discriminate.
  - (* shift *)
    destruct l as [|x l].
    + destruct a as [b|]; [|reflexivity]. destruct H as (_ & N & _). simpl in *. rewrite N. reflexivity.
    + destruct a as [b|]; [|destruct H; discriminate].
      destruct (shift_R b t x l H) as (a' & -> & H'). simpl. eauto.
  - destruct (in_range l i) eqn:E.
    + destruct (insert_R a t l i v H E) as (a' & -> & H'). simpl. eauto.
    + unfold array_insert. rewrite (index_ok_range _ _ _ _ H), E. reflexivity.
  - destruct (in_range l i) eqn:E.
    + destruct (remove_R a t l i H E) as (a' & -> & H'). simpl. eauto.
    + unfold array_remove. rewrite (index_ok_range _ _ _ _ H), E. reflexivity.
  - destruct (in_range l i) eqn:E.
    + destruct (set_R a t l i v H E) as (a' & -> & H'). simpl. eauto.
    + unfold array_set. rewrite (index_ok_range _ _ _ _ H), E. reflexivity.
  - destruct (in_range l i) eqn:E.
    + destruct (nth_error l (Z.to_nat i)) as [v|] eqn:Ev.
      * rewrite (get_R a t l i v H E Ev). simpl. eauto.
      * apply nth_error_None in Ev. apply in_range_lt in E. lia.
    + unfold array_get. rewrite (index_ok_range _ _ _ _ H), E. reflexivity.
  - destruct (n <? 0)%Z eqn:E.
    + unfold array_resize. rewrite E. reflexivity.
    + apply Z.ltb_ge in E. destruct (resize_R a t l n v H Hs E) as (a' & -> & H'). simpl. eauto.
  - cbn [op_supported] in Hs. subst t. destruct a as [b|]; [|destruct H; discriminate].
    simpl. eexists; split; [reflexivity|]. simpl. auto.
  - rewrite (Rarr_count _ _ _ H). eauto.
Qed.

Lemma Rarr_shows a t l : Rarr a t l -> shows a l.
Proof.
  intros H. split.
  - simpl. rewrite (Rarr_count _ _ _ H). reflexivity.
  - intros i v Hv. simpl. rewrite (get_R a t l (Z.of_nat i) v H).
    + reflexivity.
    + unfold in_range. assert (i < length l) by (apply nth_error_Some; congruence).
      apply andb_true_intro; split; lia.
    + rewrite Nat2Z.id. exact Hv.
Qed.

Theorem array_run_sim os : forall a t l,
  Rarr a t l -> history_supported t l os = true ->
  match list_run l os with
  | None => array_run a os = Abort
  | Some (l', rs) => exists a' t', array_run a os = Ok (a', rs) /\ Rarr a' t' l'
  end.
Proof.
  induction os as [|o os IH]; intros a t l H Hs.
  - simpl. eauto.
  - cbn [history_supported] in Hs. apply andb_prop in Hs as [Ho Hs].
    pose proof (array_step_sim a t l o H Ho) as S1. cbn [list_run array_run].
    destruct (list_step l o) as [[l1 r]|].
    + destruct S1 as (a1 & -> & H1). specialize (IH a1 _ l1 H1 Hs). simpl.
      destruct (list_run l1 os) as [[l2 rs]|].
      * destruct IH as (a2 & t2 & -> & H2). simpl. eauto.
      * rewrite IH. reflexivity.
    + rewrite S1. reflexivity.
Qed.

Lemma write_cells_R vs : forall b i l,
  firstn i (sb_cells b) = map Some l -> length l = i -> i + length vs <= sb_cap b ->
  exists b', write_cells b i vs = Ok b' /\ sb_n b' = sb_n b /\
    firstn (i + length vs) (sb_cells b') = map Some (l ++ vs).
Proof.
  induction vs as [|v vs IH]; intros b i l Hf Hl Hc; simpl in *.
  - exists b. rewrite Nat.add_0_r, app_nil_r. auto.
  - rewrite write_cell_ok by lia. simpl.
    destruct (IH (mkSb (update (sb_cells b) i (Some v)) (sb_n b)) (S i) (l ++ [v])) as (b' & E & N & F).
    + cbn [sb_cells]. rewrite (firstn_S_nth _ _ (Some v)).
      * rewrite firstn_update_ge by lia. rewrite Hf, map_app. reflexivity.
      * apply nth_error_update_eq. unfold sb_cap in Hc. lia.
    + rewrite app_length. simpl. lia.
    + unfold sb_cap in *. simpl. rewrite update_length. lia.
    + exists b'. split; [exact E|]. split; [exact N|].
      replace (i + S (length vs)) with (S i + length vs) by lia. rewrite F, <- app_assoc. reflexivity.
Qed.

Lemma init_ex_R vs : exists a, init_array_ex vs = Ok a /\ Rarr a true vs.
Proof.
  unfold init_array_ex, sb_add, sb_maybegrow, sb_grow, set_n. cbn [sb_n sb_cells].
  destruct (write_cells_R vs (mkSb (repeat None (length vs)) (0 + length vs)) 0 []) as (b' & E & N & F).
  - reflexivity.
  - reflexivity.
  - unfold sb_cap. simpl. rewrite repeat_length. lia.
  - rewrite E. simpl. eexists; split; [reflexivity|]. simpl in *. auto.
Qed.

(** C01 *)
Lemma array_is_list_L vs os :
  history_supported true vs os = true ->
  exists a0, init_array_ex vs = Ok a0 /\
  match list_run vs os with
  | None => array_run a0 os = Abort
  | Some (l, rs) => exists a, array_run a0 os = Ok (a, rs) /\ shows a l
  end.
Proof.
  intros H. destruct (init_ex_R vs) as (a0 & E & R). exists a0. split; [exact E|].
  pose proof (array_run_sim os a0 true vs R H) as S.
  destruct (list_run vs os) as [[l rs]|]; [|exact S].
  destruct S as (a & t & Er & Ra). exists a. split; [exact Er|]. eapply Rarr_shows; eauto.
Qed.

Lemma empty_array_is_list_L os :
  history_supported false [] os = true ->
  match list_run [] os with
  | None => array_run init_array os = Abort
  | Some (l, rs) => exists a, array_run init_array os = Ok (a, rs) /\ shows a l
  end.
Proof.
  intros H.
  pose proof (array_run_sim os init_array false [] (conj eq_refl eq_refl) H) as S.
  destruct (list_run [] os) as [[l rs]|]; [|exact S].
  destruct S as (a & t & Er & Ra). exists a. split; [exact Er|]. eapply Rarr_shows; eauto.
Qed.

(** C02 *)
Lemma resize_loop_leaves b base i k v j b' :
  resize_loop b base i k v = Ok b' -> j < base + i ->
  nth_error (sb_cells b') j = nth_error (sb_cells b) j.
Proof.
  revert b i. induction k as [|k IH]; intros b i H Hj; simpl in H.
  - congruence.
  - unfold write_cell in H. destruct (base + i <? sb_cap b) eqn:E; [|discriminate].
    simpl in H. rewrite (IH _ _ H) by lia. simpl. apply nth_error_update_ne. lia.
Qed.

Lemma resize_loop_not_abort b base i k v :
  resize_loop b base i k v = UB \/ exists b', resize_loop b base i k v = Ok b'.
Proof.
  revert b i. induction k as [|k IH]; intros b i; simpl; [eauto|].
  unfold write_cell. destruct (base + i <? sb_cap b); [apply IH|left; reflexivity].
Qed.

Lemma capacity_inv_step a t l o a' r K :
  Rarr a t l -> op_supported t l o = true ->
  (match a with Some b => sb_cap b <= 2 * K | None => True end) ->
  array_step a o = Ok (a', r) ->
  length l <= K -> (match list_step l o with Some (l', _) => length l' <= K | None => True end) ->
  match a' with Some b => sb_cap b <= 2 * K | None => True end.
Proof.
  intros HR Hs Hc Hst Hl Hl'.
  assert (G : forall inc, length l + inc <= K ->
            sb_cap (sb_maybegrow a inc) <= 2 * K).
  { intros inc Hi. destruct a as [b|].
    - pose proof (Rarr_cap _ _ _ HR). destruct HR as (_ & N & _).
      unfold sb_maybegrow. destruct (sb_cap b <=? sb_n b + inc) eqn:E; [|exact Hc].
      apply Nat.leb_le in E. unfold sb_cap at 1. simpl.
      rewrite app_length, firstn_length, repeat_length. unfold sb_cap in *. lia.
    - simpl. unfold sb_cap. simpl. rewrite repeat_length.
      lia. }
  assert (W : forall b i v b', write_cell b i v = Ok b' -> sb_cap b' = sb_cap b).
  { intros b i v b' E. unfold write_cell in E. destruct (i <? sb_cap b); [|discriminate].
    injection E as <-. unfold sb_cap. simpl. apply update_length. }
  assert (M : forall b d s n b', move_cells b d s n = Ok b' -> sb_cap b' = sb_cap b).
  { intros b d s n b' E. unfold move_cells in E.
    destruct ((s + n <=? sb_cap b) && (d + n <=? sb_cap b)) eqn:X; [|discriminate].
    injection E as <-. apply andb_prop in X as [X1 X2]. apply Nat.leb_le in X1, X2.
    unfold sb_cap in *. simpl. rewrite !app_length, !firstn_length, !skipn_length. lia. }
  destruct o as [v| | |i v|i|i v|i|n v| |]; cbn [array_step list_step] in *.
  - unfold array_push in Hst. set (g := sb_maybegrow a 1) in *.
    destruct (write_cell g (sb_n g) v) as [b1| | |] eqn:E; try discriminate.
    injection Hst as <- _. simpl. unfold sb_cap at 1; simpl. fold (sb_cap b1).
    rewrite (W _ _ _ _ E). apply G. rewrite app_length in Hl'. simpl in Hl'. lia.
  - destruct a as [b|]; [|discriminate]. unfold array_pop in Hst.
    destruct (0 <? sb_n b); [|discriminate].
    destruct (read_cell b (sb_n b - 1)); try discriminate. injection Hst as <- _. exact Hc.
  - destruct a as [b|]; [|discriminate]. unfold array_shift in Hst.
    destruct (0 <? sb_n b); [|discriminate].
    destruct (read_cell b 0); try discriminate. simpl in Hst.
    destruct (move_cells b 0 1 (sb_n b - 1)) eqn:E; try discriminate. injection Hst as <- _.
    simpl. unfold sb_cap at 1; simpl. apply M in E. unfold sb_cap in *. lia.
  - unfold array_insert in Hst. rewrite (index_ok_range _ _ _ _ HR) in Hst.
    destruct (in_range l i) eqn:Ei; [|discriminate].
    unfold sb_add in Hst. set (g := sb_maybegrow a 1) in *.
    destruct (move_cells _ _ _ _) as [b1| | |] eqn:E1; try discriminate. simpl in Hst.
    destruct (write_cell b1 _ v) as [b2| | |] eqn:E2; try discriminate. injection Hst as <- _.
    apply M in E1. apply W in E2. rewrite E2, E1. unfold sb_cap; simpl. fold (sb_cap g). apply G.
    rewrite app_length, firstn_length in Hl'. simpl in Hl'. rewrite skipn_length in Hl'. 
    apply in_range_lt in Ei. lia.
  - unfold array_remove in Hst. destruct (index_ok a i); [|discriminate].
    destruct a as [b|]; [|discriminate].
    destruct (move_cells _ _ _ _) as [b1| | |] eqn:E1; try discriminate. injection Hst as <- _.
    apply M in E1. unfold sb_cap in *; simpl. lia.
  - unfold array_set in Hst. destruct (index_ok a i); [|discriminate].
    destruct a as [b|]; [|discriminate].
    destruct (write_cell _ _ _) as [b1| | |] eqn:E1; try discriminate. injection Hst as <- _.
    apply W in E1. lia.
  - destruct (array_get a i); try discriminate. injection Hst as <- _. exact Hc.
  - unfold array_resize in Hst. destruct (n <? 0)%Z eqn:En; [discriminate|].
    rewrite (Rarr_count _ _ _ HR) in Hst.
    destruct (length l <? Z.to_nat n) eqn:El.
    + unfold sb_add in Hst. set (g := sb_maybegrow a (Z.to_nat n - length l)) in *.
      destruct (resize_loop _ _ _ _ _) as [b1| | |] eqn:E1; try discriminate. injection Hst as <- _.
      assert (RL : forall k b base i b', resize_loop b base i k v = Ok b' -> sb_cap b' = sb_cap b).
      { induction k as [|k IHk]; intros b base i b' E; simpl in E; [congruence|].
        destruct (write_cell b (base + i) v) as [b2| | |] eqn:E2; try discriminate.
        rewrite (IHk _ _ _ _ E). eapply W; eauto. }
      rewrite (RL _ _ _ _ _ E1). unfold sb_cap; simpl. fold (sb_cap g). apply G.
      apply Nat.ltb_lt in El. rewrite app_length, firstn_length, repeat_length in Hl'. lia.
    + destruct a as [b|]; [|discriminate]. injection Hst as <- _. exact Hc.
  - destruct a as [b|]; [|discriminate]. injection Hst as <- _. exact Hc.
  - injection Hst as <- _. exact Hc.
Qed.

Lemma list_peak_ge l os : length l <= list_peak l os.
Proof. destruct os as [|o os]; simpl; [lia|]. destruct (list_step l o) as [[l1 r]|]; lia. Qed.

Lemma capacity_run os : forall a t l K a' rs,
  Rarr a t l -> history_supported t l os = true -> list_peak l os <= K ->
  (match a with Some b => sb_cap b <= 2 * K | None => True end) ->
  array_run a os = Ok (a', rs) ->
  match a' with Some b => sb_cap b <= 2 * K | None => True end.
Proof.
  induction os as [|o os IH]; intros a t l K a' rs HR Hs Hp Hc Hr.
  - simpl in Hr. injection Hr as <- _. exact Hc.
  - cbn [history_supported] in Hs. apply andb_prop in Hs as [Ho Hs].
    pose proof (array_step_sim a t l o HR Ho) as S1.
    pose proof (list_peak_ge l (o :: os)) as Hge.
    cbn [array_run list_peak] in *.
    destruct (list_step l o) as [[l1 r]|] eqn:El.
    + destruct S1 as (a1 & E1 & R1). rewrite E1 in Hr. simpl in Hr.
      destruct (array_run a1 os) as [[a2 rs2]| | |] eqn:Er; try discriminate.
      simpl in Hr. injection Hr as <- _.
      eapply (IH a1 _ l1 K); eauto.
      * lia.
      * eapply (capacity_inv_step a t l o a1 r K); eauto; try lia.
        rewrite El. pose proof (list_peak_ge l1 os). lia.
    + rewrite S1 in Hr. discriminate.
Qed.

Lemma capacity_bound_L vs os a0 a rs :
  init_array_ex vs = Ok a0 -> history_supported true vs os = true ->
  array_run a0 os = Ok (a, rs) ->
  exists b, a = Some b /\ sb_cap b <= 2 * list_peak vs os.
Proof.
  intros E0 Hs Hr. destruct (init_ex_R vs) as (a0' & E & R).
  rewrite E0 in E. injection E as <-.
  assert (C0 : match a0 with Some b => sb_cap b <= 2 * list_peak vs os | None => True end).
  { pose proof (list_peak_ge vs os) as G.
    unfold init_array_ex, sb_add, sb_maybegrow, sb_grow in E0.
    destruct (write_cells _ _ _) as [b1| | |] eqn:E1; try discriminate.
    injection E0 as <-.
    assert (W : forall ws b i b', write_cells b i ws = Ok b' -> sb_cap b' = sb_cap b).
    { induction ws as [|w ws IHw]; intros b i b' Ew; simpl in Ew; [congruence|].
      unfold write_cell in Ew. destruct (i <? sb_cap b); [|discriminate]. simpl in Ew.
      rewrite (IHw _ _ _ Ew). unfold sb_cap; simpl. apply update_length. }
    rewrite (W _ _ _ _ E1). unfold sb_cap; simpl. rewrite repeat_length. lia. }
  pose proof (capacity_run os a0 true vs _ a rs R Hs (le_n _) C0 Hr) as C.
  pose proof (array_run_sim os a0 true vs R Hs) as S.
  destruct (list_run vs os) as [[l rs']|] eqn:El; [|congruence].
  destruct S as (a' & t' & Er & Ra). rewrite Hr in Er. injection Er as <- _.
  destruct a as [b|].
  - eauto.
  - exfalso.
    assert (T : forall os t l a a' rs, Rarr a t l -> t = true -> history_supported t l os = true ->
       array_run a os = Ok (a', rs) -> a' <> None).
    { clear. induction os as [|o os IH]; intros t l a a' rs R Ht Hs Hr.
      - simpl in Hr. injection Hr as <- _. destruct a; [discriminate|].
        destruct R. congruence.
      - cbn [history_supported] in Hs. apply andb_prop in Hs as [Ho Hs].
        pose proof (array_step_sim a t l o R Ho) as S1. cbn [array_run] in Hr.
        destruct (list_step l o) as [[l1 r]|].
        + destruct S1 as (a1 & E1 & R1). rewrite E1 in Hr. simpl in Hr.
          destruct (array_run a1 os) as [[a2 rs2]| | |] eqn:Er; try discriminate.
          simpl in Hr. injection Hr as <- _. eapply IH; eauto.
          subst t. destruct o; reflexivity.
        + rewrite S1 in Hr. discriminate. }
    exact (T os true vs a0 None rs R eq_refl Hs Hr eq_refl).
Qed.

(** Growing a non-empty array writes outside its buffer. *)
Lemma resize_loop_oob v k : forall b base i,
  sb_cap b < base + i + k -> resize_loop b base i k v = UB \/ k = 0.
Proof.
  induction k as [|k IH]; intros b base i H; [auto|].
  left. simpl. unfold write_cell. destruct (base + i <? sb_cap b) eqn:E; [|reflexivity].
  simpl. apply Nat.ltb_lt in E.
  destruct (IH (mkSb (update (sb_cells b) (base + i) (Some v)) (sb_n b)) base (S i)) as [X|X].
  - unfold sb_cap in *. simpl. rewrite update_length. lia.
  - exact X.
  - subst k. lia.
Qed.

Lemma resize_grow_oob_L vs v n :
  vs <> [] -> (Z.of_nat (length vs) < n)%Z ->
  exists a, init_array_ex vs = Ok a /\ array_resize a n v = UB.
Proof.
  intros Hne Hn. destruct (init_ex_R vs) as (a & E & R). exists a. split; [exact E|].
  assert (C : match a with Some b => sb_cap b = length vs | None => False end).
  { unfold init_array_ex, sb_add, sb_maybegrow, sb_grow in E.
    destruct (write_cells _ _ _) as [b1| | |] eqn:E1; try discriminate.
    injection E as <-.
    assert (W : forall ws b i b', write_cells b i ws = Ok b' -> sb_cap b' = sb_cap b).
    { induction ws as [|w ws IHw]; intros b i b' Ew; simpl in Ew; [congruence|].
      unfold write_cell in Ew. destruct (i <? sb_cap b); [|discriminate]. simpl in Ew.
      rewrite (IHw _ _ _ Ew). unfold sb_cap; simpl. apply update_length. }
    rewrite (W _ _ _ _ E1). unfold sb_cap; simpl. apply repeat_length. }
  unfold array_resize. rewrite (Rarr_count _ _ _ R).
  replace (n <? 0)%Z with false by (symmetry; apply Z.ltb_ge; lia).
  replace (length vs <? Z.to_nat n) with true by (symmetry; apply Nat.ltb_lt; lia).
  destruct a as [b|]; [|contradiction]. destruct R as (_ & N & _).
  assert (0 < length vs) by (destruct vs; [congruence|simpl; lia]).
  unfold sb_add, sb_maybegrow.
  replace (sb_cap b <=? sb_n b + (Z.to_nat n - length vs)) with true
    by (symmetry; apply Nat.leb_le; lia).
  set (g := sb_grow (Some b) (Z.to_nat n - length vs)).
  assert (Cg : sb_cap g = Nat.max (2 * length vs) (Z.to_nat n)).
  { unfold g, sb_cap at 1. cbn [sb_grow sb_cells].
    rewrite app_length, firstn_length, repeat_length. unfold sb_cap in *. rewrite C, N. lia. }
  assert (Ng : sb_n g = length vs) by (unfold g; simpl; exact N).
  destruct (resize_loop_oob v (Z.to_nat n - length vs) (set_n g (sb_n g + (Z.to_nat n - length vs)))
              (sb_n g) (length vs)) as [X|X].
  - unfold sb_cap at 1, set_n. cbn [sb_cells]. fold (sb_cap g). rewrite Cg, Ng. lia.
  - rewrite X. reflexivity.
  - lia.
Qed.

(** The supported resizes do what they should. *)
Lemma resize_partial_L vs os l rs n v :
  history_supported true vs os = true -> list_run vs os = Some (l, rs) ->
  (0 <= n)%Z -> (n <= Z.of_nat (length l))%Z \/ l = [] ->
  exists a0 a a', init_array_ex vs = Ok a0 /\ array_run a0 os = Ok (a, rs) /\
    array_resize a n v = Ok a' /\
    shows a' (firstn (Z.to_nat n) l ++ repeat v (Z.to_nat n - length l)).
Proof.
  intros Hs Hr Hn Hc. destruct (init_ex_R vs) as (a0 & E & R). exists a0.
  pose proof (array_run_sim os a0 true vs R Hs) as S. rewrite Hr in S.
  destruct S as (a & t & Er & Ra). exists a.
  assert (Ht : t = true).
  { destruct (capacity_bound_L vs os a0 a rs E Hs Er) as (b & -> & _). destruct Ra; auto. }
  subst t.
  destruct (resize_R a true l n v Ra) as (a' & Ea & Ra'); auto.
  - simpl. replace (n <? 0)%Z with false by (symmetry; apply Z.ltb_ge; lia). simpl.
    destruct (n <=? Z.of_nat (length l))%Z eqn:El; [reflexivity|].
    apply Z.leb_gt in El. destruct Hc as [Hc| ->]; [lia|reflexivity].
  - exists a'. repeat split; auto; eapply Rarr_shows; eauto.
Qed.

(** Growing a non-empty array, exactly *)
Lemma resize_loop_exact k : forall b base i, base + i + k <= sb_cap b -> forall v, exists b', resize_loop b base i k v = Ok b' /\ sb_n b' = sb_n b /\
  forall j, nth_error (sb_cells b') j = if (base + i <=? j) && (j <? base + i + k) then Some (Some v) else nth_error (sb_cells b) j.
Proof.
  induction k as [|k IH]; intros b base i H v; cbn [resize_loop].
  - exists b. split; auto. split; auto. intros j. destruct (Nat.leb_spec (base + i) j), (Nat.ltb_spec j (base + i + 0)); auto; lia.
  - unfold write_cell. destruct (Nat.ltb_spec (base + i) (sb_cap b)); [|lia]. cbn [obind].
    destruct (IH (mkSb (update (sb_cells b) (base + i) (Some v)) (sb_n b)) base (S i)) with (v := v) as (b' & E & N & C).
    { unfold sb_cap in *. cbn [sb_cells]. rewrite update_length. lia. }
    exists b'. split; auto. split; auto. intros j. rewrite C. cbn [sb_cells].
    destruct (Nat.eq_dec j (base + i)) as [->|Ne].
    + rewrite nth_error_update_eq by (unfold sb_cap in *; lia).
      destruct (Nat.leb_spec (base + S i) (base + i)), (Nat.leb_spec (base + i) (base + i)), (Nat.ltb_spec (base + i) (base + i + S k)); cbn; auto; lia.
    + rewrite nth_error_update_ne by auto.
      destruct (Nat.leb_spec (base + S i) j), (Nat.leb_spec (base + i) j), (Nat.ltb_spec j (base + S i + k)), (Nat.ltb_spec j (base + i + S k)); cbn; auto; lia.
Qed.
Lemma nth_firstn' {A} (l : list A) : forall n i, i < n -> nth_error (firstn n l) i = nth_error l i.
Proof. induction l as [|x l IH]; intros [|n] [|i] H; cbn; auto; try lia. apply IH. lia. Qed.
Lemma resize_grow_L vs os l rs n :
  history_supported true vs os = true -> list_run vs os = Some (l, rs) -> l <> [] -> (Z.of_nat (length l) < n)%Z ->
  exists a0 a, init_array_ex vs = Ok a0 /\ array_run a0 os = Ok (a, rs) /\
    ((forall v, array_resize a n v = UB) \/
     exists junk, forall v, exists a', array_resize a n v = Ok a' /\
       array_step a' ALen = Ok (a', RLen (Z.to_nat n)) /\
       forall i, i < Z.to_nat n -> seen a' i =
         match nth_error l i with Some x => Some x | None => if i <? 2 * length l then junk i else Some v end).
Proof.
  intros Hs Hr Hne Hn. destruct (init_ex_R vs) as (a0 & E & R). exists a0.
  pose proof (array_run_sim os a0 true vs R Hs) as S. rewrite Hr in S.
  destruct S as (a & t & Er & Ra). exists a. split; auto. split; auto.
  destruct (grow_R a t l (Z.to_nat n - length l) Ra) as ((_ & Gn & Gf) & Gc). set (g := sb_maybegrow a (Z.to_nat n - length l)) in *.
  assert (En : forall v, array_resize a n v = (b' <- resize_loop (set_n g (Z.to_nat n)) (length l) (length l) (Z.to_nat n - length l) v ;; Ok (Some b'))%outcome).
  { intros v. unfold array_resize. rewrite (Rarr_count _ _ _ Ra). replace (n <? 0)%Z with false by (symmetry; apply Z.ltb_ge; lia).
    replace (length l <? Z.to_nat n) with true by (symmetry; apply Nat.ltb_lt; lia). unfold sb_add. fold g. rewrite Gn.
    replace (length l + (Z.to_nat n - length l)) with (Z.to_nat n) by lia. reflexivity. }
  destruct (Nat.leb_spec (length l + Z.to_nat n) (sb_cap g)) as [Le|Gt].
  - right. exists (fun i => match nth_error (sb_cells g) i with Some (Some x) => Some x | _ => None end). intros v.
    destruct (resize_loop_exact (Z.to_nat n - length l) (set_n g (Z.to_nat n)) (length l) (length l)) with (v := v) as (b' & Eb & Nb & Cb).
    { unfold sb_cap in *. cbn [set_n sb_cells]. lia. }
    exists (Some b'). rewrite En, Eb. cbn [obind]. split; auto. cbn [set_n sb_n] in Nb. split; [cbn; rewrite Nb; auto|].
    intros i Hi. unfold seen. cbn [array_step]. unfold array_get, index_ok. cbn [sb_count]. rewrite Nb.
    replace (Z.of_nat i <? Z.of_nat (Z.to_nat n))%Z with true by (symmetry; apply Z.ltb_lt; lia).
    replace (0 <=? Z.of_nat i)%Z with true by (symmetry; apply Z.leb_le; lia). cbn [andb]. rewrite Nat2Z.id. unfold read_cell. rewrite Cb. cbn [set_n sb_cells].
    destruct (nth_error l i) as [x|] eqn:X.
    + assert (L : i < length l) by (apply nth_error_Some; congruence).
      destruct (Nat.leb_spec (length l + length l) i); [lia|]. cbn [andb].
      assert (Y : nth_error (firstn (length l) (sb_cells g)) i = Some (Some x)) by (rewrite Gf; apply map_nth_error; auto).
      rewrite nth_firstn' in Y by auto. rewrite Y. reflexivity.
    + apply nth_error_None in X. destruct (Nat.ltb_spec i (2 * length l)), (Nat.leb_spec (length l + length l) i), (Nat.ltb_spec i (length l + length l + (Z.to_nat n - length l))); cbn [andb]; try lia.
      all: try (destruct (nth_error (sb_cells g) i) as [[x|]|]; reflexivity). all: reflexivity.
  - left. intros v. rewrite En. destruct (resize_loop_oob v (Z.to_nat n - length l) (set_n g (Z.to_nat n)) (length l) (length l)) as [->|X].
    + unfold sb_cap in *. cbn [set_n sb_cells]. lia.
    + reflexivity.
    + lia.
Qed.
