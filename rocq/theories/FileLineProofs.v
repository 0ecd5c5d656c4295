From Coq Require Import Sorted.
From Verif Require Import Base FileLine FileLineSpec.
Local Open Scope Z_scope.

Definition strict (t : list pcline) : Prop := StronglySorted (fun a b => pl_pc a < pl_pc b) t.

Lemma add_record_last t l r :
  add_record (t ++ [l]) r =
    if pl_pc r =? pl_pc l then t ++ [mkPL (pl_pc l) (pl_file r) (pl_line r)] else t ++ [l; r].
Proof.
  induction t as [|a t IH]; [reflexivity|].
  cbn [app]. destruct (t ++ [l]) eqn:E; [destruct t; discriminate|].
  change (add_record (a :: p :: l0) r) with (a :: add_record (p :: l0) r).
  rewrite IH. destruct (_ =? _); reflexivity.
Qed.

Lemma in_force_snoc h r pc :
  in_force (h ++ [r]) pc = if pl_pc r <=? pc then Some r else in_force h pc.
Proof.
  unfold in_force. rewrite filter_app. cbn. destruct (_ <=? _).
  - rewrite map_app. cbn. apply last_last.
  - rewrite app_nil_r. reflexivity.
Qed.

Lemma increasing_snoc h r : increasing (h ++ [r]) ->
  increasing h /\ Forall (fun a => pl_pc a <= pl_pc r) h.
Proof.
  induction h as [|a h IH]; [simpl; auto|]. intros H.
  destruct h as [|b h].
  - cbn in H. destruct H. split; [exact I|]. constructor; auto.
  - cbn [app] in *. destruct H as [H1 H2]. destruct (IH H2) as [I1 I2].
    split; [split; auto|]. constructor; auto. inversion I2; subst. lia.
Qed.

Lemma strict_snoc t r : strict t -> Forall (fun a => pl_pc a < pl_pc r) t -> strict (t ++ [r]).
Proof.
  unfold strict. induction t as [|a t IH]; cbn; intros S F; [repeat constructor|].
  inversion S; subst. inversion F; subst. constructor; auto.
  apply Forall_app. split; auto.
Qed.

Lemma strict_app_inv t r : strict (t ++ [r]) -> strict t /\ Forall (fun a => pl_pc a < pl_pc r) t.
Proof.
  unfold strict. induction t as [|a t IH]; cbn; intros S; [split; constructor|].
  inversion S; subst. destruct (IH H1) as [I1 I2]. apply Forall_app in H2. destruct H2 as [F1 F2].
  inversion F2; subst. split; constructor; auto.
Qed.

Lemma table_spec h : increasing h ->
  strict (table h) /\
  (forall r, In r h -> exists l, last (map Some (table h)) None = Some l /\ pl_pc r <= pl_pc l) /\
  (forall l, last (map Some (table h)) None = Some l -> exists r, In r h /\ pl_pc r = pl_pc l) /\
  forall pc, in_force (table h) pc = in_force h pc.
Proof.
  induction h as [|r h IH] using rev_ind; intros Inc.
  - cbn. repeat split; try constructor; intros; try contradiction; discriminate.
  - destruct (increasing_snoc _ _ Inc) as [I1 I2].
    destruct (IH I1) as (S & L & L2 & F).
    unfold table in *. rewrite fold_left_app. cbn [fold_left].
    set (t := fold_left add_record h []) in *. clearbody t.
    destruct t as [|a t' _] using rev_ind.
    + cbn. split; [repeat constructor|]. split.
      { intros r0 H0. apply in_app_iff in H0. destruct H0 as [H0|[<-|[]]].
        - destruct (L _ H0) as (x & X & _). discriminate.
        - exists r. split; auto. lia. }
      split.
      { intros l E. inversion E; subst. exists l. split; [apply in_app_iff; cbn; auto|auto]. }
      intros pc. rewrite in_force_snoc. rewrite <- F. unfold in_force. cbn.
      destruct (pl_pc r <=? pc); reflexivity.
    + rewrite map_app in L, L2. cbn in L, L2. rewrite last_last in L, L2.
      rewrite add_record_last.
      destruct (strict_app_inv _ _ S) as [S1 S2].
      destruct (L2 a eq_refl) as (ra & Ra & Era).
      assert (Hle : pl_pc a <= pl_pc r).
      { rewrite Forall_forall in I2. rewrite <- Era. apply I2. exact Ra. }
      destruct (Z.eqb_spec (pl_pc r) (pl_pc a)) as [E|E].
      * rewrite map_app. cbn [map]. rewrite last_last.
        split. { apply strict_snoc; auto. }
        split. { intros x Hx. apply in_app_iff in Hx. eexists. split; [reflexivity|]. cbn.
                 destruct Hx as [Hx|[<-|[]]]; [|lia].
                 destruct (L _ Hx) as (y & Y & Hy). inversion Y; subst. lia. }
        split. { intros l El. inversion El; subst. cbn. exists r. split; [apply in_app_iff; cbn; auto|lia]. }
        intros pc. rewrite !in_force_snoc. cbn [pl_pc]. rewrite <- E.
        destruct (pl_pc r <=? pc) eqn:C.
        { destruct r; cbn in *. reflexivity. }
        rewrite <- F. rewrite in_force_snoc. rewrite <- E, C. reflexivity.
      * replace (t' ++ [a; r]) with ((t' ++ [a]) ++ [r]) by (rewrite <- app_assoc; reflexivity).
        rewrite map_app. cbn [map]. rewrite last_last.
        split. { apply strict_snoc; auto. apply Forall_app. split.
                 - eapply Forall_impl; [|exact S2]. cbn. intros; lia.
                 - constructor; auto. lia. }
        split. { intros x Hx. apply in_app_iff in Hx. eexists. split; [reflexivity|].
                 destruct Hx as [Hx|[<-|[]]]; [|lia].
                 rewrite Forall_forall in I2. auto. }
        split. { intros l El. inversion El; subst. exists l. split; [apply in_app_iff; cbn; auto|lia]. }
        intros pc. rewrite (in_force_snoc (t' ++ [a])), (in_force_snoc h). rewrite F. reflexivity.
Qed.

Lemma strict_nth t i j a b : strict t -> nth_error t i = Some a -> nth_error t j = Some b ->
  (i < j)%nat -> pl_pc a < pl_pc b.
Proof.
  unfold strict. intros S. revert i j. induction S as [|x l S IH F]; intros i j Hi Hj L.
  - destruct i; discriminate.
  - destruct j as [|j]; [lia|]. cbn in Hj. destruct i as [|i]; cbn in Hi.
    + inversion Hi; subst. rewrite Forall_forall in F. apply F. eapply nth_error_In; eauto.
    + eapply IH; eauto. lia.
Qed.

(** Invariant of the search. *)
Lemma search_spec t pc : strict t -> forall fuel lo hi,
  (lo < hi <= length t)%nat -> (hi - lo < fuel)%nat ->
  (forall r, nth_error t lo = Some r -> lo = 0%nat \/ pl_pc r <= pc) ->
  (forall r, nth_error t hi = Some r -> pc < pl_pc r) ->
  exists i, search fuel t pc lo hi = Ok i /\ (i < length t)%nat /\
   (forall r, nth_error t i = Some r -> i = 0%nat \/ pl_pc r <= pc) /\
   (forall r, nth_error t (S i) = Some r -> pc < pl_pc r).
Proof.
  intros St. induction fuel as [|f IH]; intros lo hi B Fu Lo Hi; [lia|].
  cbn [search]. destruct (Nat.leb_spec hi (lo + 1)).
  - assert (hi = S lo) by lia. subst hi.
    assert (((lo + S lo) / 2)%nat = lo) as ->.
    { replace (lo + S lo)%nat with (1 + lo * 2)%nat by lia. rewrite Nat.div_add by lia. reflexivity. }
    exists lo. repeat split; auto. lia.
  - assert (C : (lo < (lo + hi) / 2 < hi)%nat).
    { split; [apply Nat.div_le_lower_bound; lia|apply Nat.div_lt_upper_bound; lia]. }
    set (cur := ((lo + hi) / 2)%nat) in *. clearbody cur.
    destruct (nth_error t cur) as [r|] eqn:N.
    2:{ apply nth_error_None in N. lia. }
    destruct (Z.ltb_spec (pl_pc r) pc).
    { apply IH; try lia; auto. intros r' Hr'. rewrite N in Hr'. inversion Hr'; subst. right; lia. }
    destruct (Z.ltb_spec pc (pl_pc r)).
    { apply IH; try lia; auto. intros r' Hr'. rewrite N in Hr'. inversion Hr'; subst. lia. }
    exists cur. repeat split; auto; try lia.
    + intros r' Hr'. rewrite N in Hr'. inversion Hr'; subst. right; lia.
    + intros r' Hr'. pose proof (strict_nth _ _ _ _ _ St N Hr' ltac:(lia)). lia.
Qed.

Lemma in_force_nth t pc i r : strict t -> nth_error t i = Some r -> pl_pc r <= pc ->
  (forall s, nth_error t (S i) = Some s -> pc < pl_pc s) -> in_force t pc = Some r.
Proof.
  intros St. revert i. induction t as [|a t IH] using rev_ind; intros i N L H; [destruct i; discriminate|].
  rewrite in_force_snoc. destruct (strict_app_inv _ _ St) as [S1 S2].
  destruct (Nat.eq_dec i (length t)) as [E|E].
  - subst i. rewrite nth_error_app2, Nat.sub_diag in N by lia. cbn in N. inversion N; subst.
    apply Z.leb_le in L. rewrite L. reflexivity.
  - assert (i < length t)%nat.
    { assert (i < length (t ++ [a]))%nat by (apply nth_error_Some; congruence).
      rewrite app_length in H0. cbn in H0. lia. }
    assert (A : pc < pl_pc a).
    { destruct (nth_error (t ++ [a]) (S i)) as [s|] eqn:Ns.
      - specialize (H s eq_refl).
        destruct (Nat.eq_dec (S i) (length t)) as [Es|Es].
        + rewrite Es, nth_error_app2, Nat.sub_diag in Ns by lia. cbn in Ns. inversion Ns; subst. lia.
        + rewrite nth_error_app1 in Ns by lia. apply nth_error_In in Ns.
          rewrite Forall_forall in S2. specialize (S2 _ Ns). lia.
      - apply nth_error_None in Ns. rewrite app_length in Ns. cbn in Ns. lia. }
    destruct (Z.leb_spec (pl_pc a) pc); [lia|].
    rewrite nth_error_app1 in N by lia.
    apply (IH S1 i); auto. intros s Hs. apply H.
    rewrite nth_error_app1; auto. apply nth_error_Some. congruence.
Qed.

Lemma file_line_any h nstr pc r :
  increasing h -> 0 <= pc -> in_force h pc = Some r ->
  file_line (table h) nstr pc =
    if 0 <=? pl_file r then oassert (pl_file r <? nstr) (Ok (Some (pl_file r), pl_line r)) else Ok (None, pl_line r).
Proof.
  intros Inc Hpc F. destruct (table_spec h Inc) as (St & _ & _ & Fe).
  rewrite <- Fe in F. set (t := table h) in *. clearbody t.
  unfold file_line. destruct (Z.ltb_spec pc 0); [lia|].
  destruct t as [|a t'] eqn:Et; [discriminate|]. rewrite <- Et in *. clear Et.
  assert (length t =? 0 = false)%nat as E0.
  { apply Nat.eqb_neq. destruct t; [discriminate|cbn; lia]. }
  rewrite E0. cbn [orb]. apply Nat.eqb_neq in E0.
  destruct (search_spec t pc St (S (length t)) 0 (length t)) as (i & Si & Li & P1 & P2).
  - lia. - lia. - auto.
  - intros r' N. assert (nth_error t (length t) = None) by (apply nth_error_None; lia). congruence.
  - rewrite Si. destruct (nth_error t i) as [x|] eqn:N; [|apply nth_error_None in N; lia].
    assert (X : pl_pc x <= pc).
    { destruct (P1 x eq_refl) as [E|E]; [|exact E]. subst i.
      (* some record is in force, so the first one is at or before pc *)
      destruct t as [|y u]; [discriminate|]. cbn in N. inversion N; subst y.
      destruct (Z_le_gt_dec (pl_pc x) pc); [assumption|].
      exfalso. unfold in_force in F.
      assert (filter (fun r => pl_pc r <=? pc) (x :: u) = []) as Z0.
      { assert (Al : forall y, In y (x :: u) -> pl_pc y <=? pc = false).
        { intros y Hy. apply Z.leb_gt. inversion St; subst. destruct Hy as [<-|Hy]; [lia|].
          rewrite Forall_forall in H3. specialize (H3 _ Hy). lia. }
        clear - Al. induction (x :: u) as [|b l IHl]; [reflexivity|]. cbn.
        rewrite Al by (cbn; auto). apply IHl. intros; apply Al; cbn; auto. }
      rewrite Z0 in F. discriminate. }
    rewrite (in_force_nth t pc i x St N X P2) in F. inversion F; subst. reflexivity.
Qed.
Lemma file_line_in_force h nstr pc r :
  increasing h -> 0 <= pc -> in_force h pc = Some r ->
  0 <= pl_file r < nstr ->
  file_line (table h) nstr pc = Ok (Some (pl_file r), pl_line r).
Proof.
  intros Inc Hpc F Hf. rewrite (file_line_any h nstr pc r Inc Hpc F).
  destruct (Z.leb_spec 0 (pl_file r)); [|lia]. destruct (Z.ltb_spec (pl_file r) nstr); [|lia]. reflexivity.
Qed.
Lemma file_line_none h nstr pc : pc < 0 \/ h = [] -> file_line (table h) nstr pc = Ok (None, 0).
Proof.
  unfold file_line. intros [N| ->].
  - destruct (Z.ltb_spec pc 0); [reflexivity|lia].
  - cbn. rewrite Bool.orb_true_r. reflexivity.
Qed.
