From Verif Require Import Base Values Heap GCSpec.
Local Open Scope nat_scope.

Section Proofs.
Context {H : Type} (N : natives H) (host : H).

Lemma kids_gives b v : In v (kids N host b) <-> gives N host b v.
Proof.
  destruct b; simpl; split; intros I.
  - contradiction.
  - inversion I.
  - destruct (Nat.eqb_spec prop 0); [contradiction|]. constructor; auto.
  - inversion I; subst. destruct (Nat.eqb_spec prop 0); [congruence|auto].
  - constructor; auto.
  - inversion I; auto.
Qed.

(** The heap without its marks. *)
Definition skel (h : heap) : heap := map (set_mark false) h.
Definition marked (h : heap) (id : nat) : Prop := exists o, hget h id = Some o /\ o_mark o = true.

Lemma hget_skel h id : hget (skel h) id = option_map (set_mark false) (hget h id).
Proof.
  induction h as [|o h IH]; simpl; auto. destruct (Nat.eqb (o_id o) id); auto.
Qed.

Lemma skel_get h h' id : skel h = skel h' ->
  option_map o_body (hget h id) = option_map o_body (hget h' id).
Proof.
  intros E. pose proof (hget_skel h id) as A. rewrite E, hget_skel in A.
  destruct (hget h id), (hget h' id); simpl in *; try congruence.
  unfold set_mark in A. injection A; intros; congruence.
Qed.

Lemma edge_skel h h' a b : skel h = skel h' -> edge N host h a b -> edge N host h' a b.
Proof.
  intros E (o & v & G & K & R). pose proof (skel_get h h' a E) as S. rewrite G in S. simpl in S.
  destruct (hget h' a) as [o'|] eqn:G'; [|discriminate]. simpl in S. inversion S.
  exists o', v. rewrite <- H1. auto.
Qed.

Lemma skel_hset h id : skel (hset h id (set_mark true)) = skel h.
Proof.
  induction h as [|o h IH]; simpl; auto. destruct (Nat.eqb (o_id o) id); simpl; auto. congruence.
Qed.

Lemma marked_hset h id x : hget h id <> None ->
  (marked (hset h id (set_mark true)) x <-> x = id \/ marked h x).
Proof.
  unfold marked. induction h as [|o h IH]; simpl; intros A; [congruence|].
  destruct (Nat.eqb_spec (o_id o) id) as [E|E].
  - simpl. destruct (Nat.eqb_spec (o_id o) x) as [E2|E2].
    + split; intros _; [left; congruence|]. eexists; split; [reflexivity|reflexivity].
    + split; [tauto|]. intros [->|M]; [congruence|auto].
  - simpl. destruct (Nat.eqb_spec (o_id o) x) as [E2|E2].
    + split; [tauto|]. intros [->|M]; [congruence|auto].
    + apply IH. assumption.
Qed.

(** Invariant of marking: marked objects only give access to marked objects,
    and the graph below a marked object is well founded. *)
Definition inv (h : heap) : Prop :=
  forall id, marked h id ->
    Acc (fun b a => edge N host h a b) id /\
    forall id', edge N host h id id' -> marked h id'.

Definition from (h : heap) (v : value) (id : nat) : Prop := reachable N host h [v] id.

Lemma reach_mono h rs rs' id : (forall v, In v rs -> In v rs') ->
  reachable N host h rs id -> reachable N host h rs' id.
Proof. intros S R. induction R; [eapply reach_root; eauto|eapply reach_edge; eauto]. Qed.

Lemma reach_skel h h' rs id : skel h = skel h' ->
  reachable N host h rs id -> reachable N host h' rs id.
Proof.
  intros E R. induction R; [eapply reach_root; eauto|].
  eapply reach_edge; eauto. eapply edge_skel; eauto.
Qed.

Lemma acc_skel h h' id : skel h = skel h' ->
  Acc (fun b a => edge N host h a b) id -> Acc (fun b a => edge N host h' a b) id.
Proof.
  intros E A. induction A as [x _ IH]. constructor. intros y Hy. apply IH.
  eapply edge_skel; [symmetry; eassumption|assumption].
Qed.

Definition mark_post (h : heap) (vs : list value) (h' : heap) : Prop :=
  inv h' /\ skel h' = skel h /\ (forall id, marked h id -> marked h' id) /\
  (forall v id, In v vs -> ref_of v = Some id -> marked h' id) /\
  (forall id, marked h' id -> marked h id \/ reachable N host h vs id).

Lemma mark_post_refl h vs : inv h -> (forall v id, In v vs -> ref_of v = Some id -> marked h id) ->
  mark_post h vs h.
Proof. intros I T. split; [exact I|]. split; [reflexivity|]. split; [auto|]. split; auto. Qed.

Lemma marks_ok (mk : heap -> value -> outcome heap) :
  (forall h v h', inv h -> mk h v = Ok h' -> mark_post h [v] h') ->
  forall vs h h', inv h -> each mk vs h = Ok h' -> mark_post h vs h'.
Proof.
  intros MK. induction vs as [|v vs IH]; intros h h' I E; simpl in E.
  - inversion E; subst. apply mark_post_refl; [exact I|]. intros v id [].
  - destruct (mk h v) as [h1| | |] eqn:E1; try discriminate.
    destruct (MK _ _ _ I E1) as (I1 & S1 & M1 & T1 & F1).
    destruct (IH _ _ I1 E) as (I2 & S2 & M2 & T2 & F2).
    split; [auto|]. split; [congruence|]. split; [auto|]. split.
    + intros w id [<-|Hw] R; eauto. apply M2. eapply T1; simpl; eauto.
    + intros id Mk. destruct (F2 id Mk) as [Mk1|R].
      * destruct (F1 id Mk1) as [?|R1]; auto. right. eapply reach_mono; [|exact R1].
        simpl. intuition.
      * right. eapply reach_skel in R; [|exact S1]. eapply reach_mono; [|exact R]. simpl; auto.
Qed.

Lemma mark_ok : forall fuel h v h', inv h -> mark N fuel host h v = Ok h' -> mark_post h [v] h'.
Proof.
  induction fuel as [|f IH]; intros h v h' I E; simpl in E.
  - destruct (ref_of v) as [id|] eqn:R; [discriminate|]. inversion E; subst.
    apply mark_post_refl; [exact I|]. intros w id [<-|[]]; congruence.
  - destruct (ref_of v) as [id|] eqn:R.
    2:{ inversion E; subst. apply mark_post_refl; [exact I|]. intros w id [<-|[]]; congruence. }
    destruct (hget h id) as [o|] eqn:G; [|discriminate].
    destruct (o_mark o) eqn:Mo.
    { inversion E; subst. split; [auto|]. split; [auto|]. split; [auto|]. split; [|auto].
      intros w id' [<-|[]] R'. assert (id' = id) by congruence. subst. exists o; auto. }
    destruct (each (mark N f host) (kids N host (o_body o)) h) as [h1| | |] eqn:E1; try discriminate.
    inversion E; subst h'. clear E.
    destruct (marks_ok (mark N f host) (IH) _ _ _ I E1) as (I1 & S1 & M1 & T1 & F1).
    assert (G1 : hget h1 id <> None).
    { pose proof (skel_get h1 h id S1) as S. rewrite G in S. destruct (hget h1 id); [congruence|discriminate]. }
    assert (SS : skel (hset h1 id (set_mark true)) = skel h) by (rewrite skel_hset; auto).
    assert (Kids : forall id', edge N host h id id' -> marked h1 id').
    { intros id' (o' & w & G' & K & Rw). assert (o' = o) by congruence. subst o'.
      eapply T1; [|exact Rw]. apply kids_gives. exact K. }
    split.
    { (* inv *)
      intros x Mx. apply marked_hset in Mx; auto.
      assert (Old : marked h1 x -> Acc (fun b a => edge N host (hset h1 id (set_mark true)) a b) x /\
               (forall id', edge N host (hset h1 id (set_mark true)) x id' ->
                  marked (hset h1 id (set_mark true)) id')).
      { intros M. destruct (I1 x M) as [A C]. split.
        - eapply acc_skel; [|exact A]. rewrite skel_hset. reflexivity.
        - intros id' Ed. apply marked_hset; auto. right. apply C.
          eapply edge_skel; [|exact Ed]. apply skel_hset. }
      destruct Mx as [->|Mx]; [|auto].
      split.
      - constructor. intros y Hy.
        assert (marked h1 y) as My.
        { apply Kids. eapply edge_skel; [|exact Hy]. exact SS. }
        destruct (I1 y My) as [A _]. eapply acc_skel; [|exact A]. rewrite skel_hset. reflexivity.
      - intros id' Ed. apply marked_hset; auto. right. apply Kids.
        eapply edge_skel; [|exact Ed]. exact SS. }
    split; [exact SS|]. split; [intros x Mx; apply marked_hset; auto|].
    split.
    { intros w id' [<-|[]] R'. apply marked_hset; auto. left. congruence. }
    intros x Mx. apply marked_hset in Mx; auto.
    destruct Mx as [->|Mx].
    { right. eapply reach_root; [simpl; eauto|auto]. }
    destruct (F1 x Mx) as [?|Rx]; auto. right.
    clear - Rx G R. induction Rx as [w id' Iw Rw|a b Ra IHa Ed].
    + eapply reach_edge. { eapply reach_root; [simpl; eauto|exact R]. }
      exists o, w. repeat split; auto. apply kids_gives. exact Iw.
    + eapply reach_edge; eauto.
Qed.

(** Marking never aborts; it is undefined only on a dangling pointer. *)
Lemma mark_not_abort : forall fuel h v, mark N fuel host h v <> Abort.
Proof.
  induction fuel as [|f IH]; intros h v; simpl; destruct (ref_of v); try discriminate.
  destruct (hget h n); try discriminate. destruct (o_mark o); try discriminate.
  assert (A : forall l h, each (mark N f host) l h <> Abort).
  { induction l as [|x l IHl]; intros h0; simpl; [discriminate|].
    destruct (mark N f host h0 x) eqn:E; try discriminate; auto. intros _; eapply IH; eauto. }
  specialize (A (kids N host (o_body o)) h). destruct (each _ _ _); try discriminate; auto.
Qed.

Lemma marks_not_abort f l : forall h, each (mark N f host) l h <> Abort.
Proof.
  induction l as [|x l IHl]; intros h0; simpl; [discriminate|].
  destruct (mark N f host h0 x) eqn:E; try discriminate; auto.
  intros _; eapply mark_not_abort; eauto.
Qed.

Lemma marks_ub (mk : heap -> value -> outcome heap) :
  (forall h v h', inv h -> mk h v = Ok h' -> mark_post h [v] h') ->
  (forall h v, inv h -> mk h v = UB -> exists id, from h v id /\ hget h id = None) ->
  forall vs h, inv h -> each mk vs h = UB -> exists id, reachable N host h vs id /\ hget h id = None.
Proof.
  intros MK MU. induction vs as [|v vs IH]; intros h I E; simpl in E; [discriminate|].
  destruct (mk h v) as [h1| | |] eqn:E1; try discriminate.
  - destruct (MK _ _ _ I E1) as (I1 & S1 & _).
    destruct (IH _ I1 E) as (id & R & G). exists id. split.
    + eapply reach_skel in R; [|exact S1]. eapply reach_mono; [|exact R]. simpl; auto.
    + pose proof (skel_get h1 h id S1) as S. rewrite G in S. simpl in S. destruct (hget h id); [discriminate|auto].
  - destruct (MU _ _ I E1) as (id & R & G). exists id. split; [|auto].
    eapply reach_mono; [|exact R]. simpl; intuition.
Qed.

Lemma mark_ub : forall fuel h v, inv h -> mark N fuel host h v = UB ->
  exists id, from h v id /\ hget h id = None.
Proof.
  induction fuel as [|f IH]; intros h v I E; simpl in E; destruct (ref_of v) as [id|] eqn:R; try discriminate.
  destruct (hget h id) as [o|] eqn:G.
  2:{ exists id. split; auto. eapply reach_root; [simpl; eauto|auto]. }
  destruct (o_mark o); [discriminate|].
  destruct (each (mark N f host) (kids N host (o_body o)) h) as [h1| | |] eqn:E1; try discriminate.
  destruct (marks_ub (mark N f host) (mark_ok f) IH _ _ I E1) as (x & Rx & Gx).
  exists x. split; auto. clear - Rx G R. induction Rx as [w id' Iw Rw|a b Ra IHa Ed].
  + eapply reach_edge. { eapply reach_root; [simpl; eauto|exact R]. }
    exists o, w. repeat split; auto. apply kids_gives. exact Iw.
  + eapply reach_edge; eauto.
Qed.

(** Running out of fuel means a long chain of edges. *)
Inductive chain (h : heap) : nat -> list nat -> Prop :=
| chain_one id : chain h id [id]
| chain_cons a b l : edge N host h a b -> chain h b l -> chain h a (a :: l).

Lemma marks_fuel (mk : heap -> value -> outcome heap) (f : nat) :
  (forall h v h', inv h -> mk h v = Ok h' -> mark_post h [v] h') ->
  (forall h v, inv h -> mk h v = Fuel -> exists id l, ref_of v = Some id /\ chain h id l /\ length l = S f) ->
  forall vs h, inv h -> each mk vs h = Fuel ->
    exists v id l, In v vs /\ ref_of v = Some id /\ chain h id l /\ length l = S f.
Proof.
  intros MK MF. induction vs as [|v vs IH]; intros h I E; simpl in E; [discriminate|].
  destruct (mk h v) as [h1| | |] eqn:E1; try discriminate.
  - destruct (MK _ _ _ I E1) as (I1 & S1 & _).
    destruct (IH _ I1 E) as (w & id & l & Iw & R & C & L). exists w, id, l.
    repeat split; simpl; auto. clear - C S1. induction C; [constructor|].
    eapply chain_cons; [eapply edge_skel; eauto|auto].
  - destruct (MF _ _ I E1) as (id & l & R & C & L). exists v, id, l. simpl; auto.
Qed.

Lemma mark_fuel_chain : forall fuel h v, inv h -> mark N fuel host h v = Fuel ->
  exists id l, ref_of v = Some id /\ chain h id l /\ length l = S fuel.
Proof.
  induction fuel as [|f IH]; intros h v I E; simpl in E; destruct (ref_of v) as [id|] eqn:R; try discriminate.
  - exists id, [id]. repeat split; auto. constructor.
  - destruct (hget h id) as [o|] eqn:G; [|discriminate].
    destruct (o_mark o); [discriminate|].
    destruct (each (mark N f host) (kids N host (o_body o)) h) as [h1| | |] eqn:E1; try discriminate.
    destruct (marks_fuel (mark N f host) f (mark_ok f) IH _ _ I E1) as (w & b & l & Iw & Rw & C & L).
    exists id, (id :: l). repeat split; auto; [|simpl; lia].
    apply chain_cons with (b := b); auto. exists o, w. repeat split; auto. apply kids_gives; auto.
Qed.

Lemma chain_alive h id l : chain h id l ->
  forall x, In x (removelast l) -> hget h x <> None.
Proof.
  induction 1; intros x Hx; [simpl in Hx; contradiction|].
  assert (l <> []) by (inversion H1; discriminate).
  simpl in Hx. destruct l; [congruence|]. destruct Hx as [<-|Hx]; auto.
  destruct H0 as (o & v & G & _). congruence.
Qed.

Lemma chain_reach h rs id l : chain h id l -> reachable N host h rs id ->
  forall x, In x l -> reachable N host h rs x.
Proof.
  induction 1; intros R x Hx.
  - destruct Hx as [<-|[]]; auto.
  - destruct Hx as [<-|Hx]; auto. apply IHchain; auto. eapply reach_edge; eauto.
Qed.

Lemma chain_path h id l : chain h id l -> forall x, In x (tl l) -> path N host h id x.
Proof.
  induction 1; intros x Hx; [simpl in Hx; contradiction|]. simpl in Hx.
  inversion H1; subst; simpl in *.
  - destruct Hx as [<-|[]]. constructor; auto.
  - destruct Hx as [<-|Hx]; [constructor; auto|]. eapply path_cons; eauto.
Qed.

Lemma hget_in h id : hget h id <> None -> In id (map o_id h).
Proof.
  induction h as [|o h IH]; simpl; [congruence|].
  destruct (Nat.eqb_spec (o_id o) id); auto.
Qed.

Lemma not_nodup_dup (l : list nat) : ~ NoDup l ->
  exists a l1 l2 , l = l1 ++ a :: l2 /\ In a l2.
Proof.
  induction l as [|x l IH]; intros ND; [exfalso; apply ND; constructor|].
  destruct (in_dec Nat.eq_dec x l) as [I|I].
  - exists x, [], l. auto.
  - destruct IH as (a & l1 & l2 & E & I2).
    + intros D. apply ND. constructor; auto.
    + exists a, (x :: l1), l2. subst. auto.
Qed.

Lemma chain_suffix h id l l1 a l2 : chain h id l -> l = l1 ++ a :: l2 -> chain h a (a :: l2).
Proof.
  intros C. revert l1. induction C; intros l1 E.
  - destruct l1 as [|? [|]]; inversion E; subst. constructor.
  - destruct l1 as [|x l1]; inversion E; subst.
    + econstructor; eauto.
    + eapply IHC; eauto.
Qed.

Lemma chain_cycle h rs id l :
  reachable N host h rs id -> chain h id l -> length l = S (S (length h)) ->
  reachable_cycle N host h rs.
Proof.
  intros R C L.
  assert (ND : ~ NoDup (removelast l)).
  { intros D.
    assert (I : incl (removelast l) (map o_id h)).
    { intros x Hx. apply hget_in. eapply chain_alive; eauto. }
    pose proof (NoDup_incl_length D I) as LL. rewrite map_length in LL.
    assert (E : l = removelast l ++ [last l 0]) by (apply app_removelast_last; destruct l; discriminate).
    assert (length l = length (removelast l) + 1) by (rewrite E at 1; rewrite app_length; reflexivity).
    lia. }
  destruct (not_nodup_dup _ ND) as (a & l1 & l2 & E & I2).
  assert (El : l = l1 ++ a :: (l2 ++ [last l 0])).
  { rewrite (app_removelast_last 0 (l := l)) at 1 by (destruct l; discriminate).
    rewrite E, <- app_assoc. reflexivity. }
  exists a. split.
  - eapply chain_reach; eauto. rewrite El. apply in_app_iff. simpl; auto.
  - eapply chain_path. { eapply chain_suffix; [exact C|exact El]. }
    simpl. apply in_app_iff. auto.
Qed.

(** Sweeping. *)
Lemma sweep_spec h : forall w n,
  sweep N h w n =
  (map (set_mark false) (filter o_mark h),
   finalize_all N w (filter (fun o => negb (o_mark o)) h),
   n - length (filter (fun o => negb (o_mark o)) h)).
Proof.
  induction h as [|o h IH]; intros w n; simpl; [rewrite Nat.sub_0_r; reflexivity|].
  destruct (o_mark o); simpl; rewrite IH; auto.
  replace (n - 1 - length (filter (fun o => negb (o_mark o)) h))
    with (n - S (length (filter (fun o => negb (o_mark o)) h))) by lia.
  destruct (o_body o); reflexivity.
Qed.

Lemma unmarked_inv h : Forall (fun o => o_mark o = false) h -> inv h.
Proof.
  intros F id (o & G & M). exfalso.
  assert (In o h).
  { clear - G. induction h as [|x h IH]; simpl in G; [discriminate|].
    destruct (Nat.eqb (o_id x) id); [inversion G; simpl; auto|simpl; auto]. }
  rewrite Forall_forall in F. rewrite F in M; [discriminate|auto].
Qed.

Lemma hget_first h o : NoDup (map o_id h) -> In o h -> hget h (o_id o) = Some o.
Proof.
  induction h as [|x h IH]; simpl; intros D I; [contradiction|]. inversion D; subst.
  destruct I as [->|I]. { rewrite Nat.eqb_refl. reflexivity. }
  destruct (Nat.eqb_spec (o_id x) (o_id o)) as [E|E]; [|auto].
  exfalso. apply H2. rewrite E. apply in_map. auto.
Qed.

Lemma skel_ids h : map o_id (skel h) = map o_id h.
Proof. unfold skel. rewrite map_map. apply map_ext. reflexivity. Qed.

Lemma keeps_marked (P : nat -> Prop) : forall h h1,
  skel h1 = skel h -> Forall (fun o => o_mark o = false) h ->
  (forall o, In o h1 -> (o_mark o = true <-> P (o_id o))) ->
  keeps (fun o => P (o_id o)) h (map (set_mark false) (filter o_mark h1)) /\
  exists dead, keeps (fun o => ~ P (o_id o)) h dead /\
    map o_body dead = map o_body (filter (fun o => negb (o_mark o)) h1) /\
    length dead = length (filter (fun o => negb (o_mark o)) h1).
Proof.
  induction h as [|o h IH]; intros [|o1 h1] S F M; try discriminate.
  - simpl. split; [constructor|]. exists []. repeat split; constructor.
  - simpl in S. inversion S; subst. inversion F; subst.
    destruct (IH h1) as (K & dead & D & E & L); auto. { intros; apply M; simpl; auto. }
    assert (EQ : set_mark false o1 = o).
    { destruct o, o1; simpl in *. unfold set_mark; simpl. congruence. }
    pose proof (M o1 (or_introl eq_refl)) as Mo. rewrite H1 in Mo.
    simpl. destruct (o_mark o1); simpl.
    + split.
      * rewrite EQ. constructor; auto. apply Mo; auto.
      * exists dead. repeat split; auto. apply keeps_no; auto. intros C. apply C. apply Mo; auto.
    + split.
      * apply keeps_no; auto. intros C. apply Mo in C. discriminate.
      * exists (o :: dead). simpl. repeat split; auto.
        -- constructor; auto. intros C. apply Mo in C. discriminate.
        -- f_equal; auto.
Qed.

Lemma finalize_all_bodies w l l' : map o_body l = map o_body l' ->
  finalize_all N w l = finalize_all N w l'.
Proof.
  revert w l'. induction l as [|o l IH]; intros w [|o' l'] E; try discriminate; auto.
  simpl in *. inversion E. rewrite H1. apply IH. auto.
Qed.

Lemma keeps_length {A} (P : A -> Prop) l : forall l1 l2,
  keeps P l l1 -> keeps (fun x => ~ P x) l l2 -> length l = length l1 + length l2.
Proof.
  induction l as [|x l IH]; intros l1 l2 K1 K2; inversion K1; inversion K2; subst; simpl; auto;
    try (exfalso; tauto); rewrite (IH _ _ H4 H9) || rewrite (IH _ _ H3 H9) || rewrite (IH _ _ H4 H8) || idtac; try lia.
Qed.

Theorem collect_exact h n roots h' w' n' mx' :
  heap_ok h -> collect N h host n roots = Ok (h', w', n', mx') ->
  exists dead,
    keeps (fun o => reachable N host h roots (o_id o)) h h' /\
    keeps (fun o => ~ reachable N host h roots (o_id o)) h dead /\
    w' = finalize_all N host dead /\ n' = n - length dead /\ mx' = 2 * n' /\
    all_alive N host h roots /\ ~ reachable_cycle N host h roots.
Proof.
  intros [D U] E. unfold collect, mark_all in E.
  destruct (each (mark N (mark_fuel h) host) roots h) as [h1| | |] eqn:E1; try discriminate.
  rewrite sweep_spec in E. inversion E; subst. clear E.
  destruct (marks_ok (mark N (mark_fuel h) host) (mark_ok _) _ _ _ (unmarked_inv _ U) E1)
    as (I1 & S1 & _ & T1 & F1).
  assert (Mall : forall id, reachable N host h roots id -> marked h1 id).
  { intros id R. induction R as [v id Iv Rv|a b Ra IHa Ed]; [eauto|].
    destruct (I1 a IHa) as [_ C]. apply C. eapply edge_skel; [|exact Ed]. congruence. }
  assert (M1 : forall o, In o h1 -> (o_mark o = true <-> reachable N host h roots (o_id o))).
  { intros o Io. assert (D1 : NoDup (map o_id h1)).
    { rewrite <- skel_ids, S1, skel_ids. exact D. }
    pose proof (hget_first _ _ D1 Io) as G. split.
    - intros Mo. destruct (F1 (o_id o)) as [(x & Gx & Mx)|R]; [exists o; auto| |auto].
      destruct (unmarked_inv _ U (o_id o)) as [_ _]; [exists x; auto|].
      exfalso. assert (In x h).
      { clear - Gx. induction h as [|y h IH]; simpl in Gx; [discriminate|].
        destruct (Nat.eqb (o_id y) (o_id o)); [inversion Gx; simpl; auto|simpl; auto]. }
      rewrite Forall_forall in U. rewrite U in Mx; [discriminate|auto].
    - intros R. destruct (Mall _ R) as (x & Gx & Mx). congruence. }
  destruct (keeps_marked (reachable N host h roots) h h1 S1 U M1) as (K & dead & K2 & B & L).
  exists dead. split; [exact K|]. split; [exact K2|].
  split; [apply finalize_all_bodies; auto|]. split; [lia|]. split; [lia|]. split.
  - intros id R. destruct (Mall _ R) as (x & Gx & _). pose proof (skel_get h1 h id S1) as SG.
    rewrite Gx in SG. destruct (hget h id); [congruence|discriminate].
  - intros (id & R & P).
    assert (A : Acc (fun b a => edge N host h a b) id).
    { destruct (I1 id (Mall _ R)) as [A _]. eapply acc_skel; eauto. }
    clear - A P. induction A as [x _ IH].
    assert (exists y, edge N host h x y /\ path N host h y y) as (y & Ed & Py).
    { inversion P; subst.
      - exists x; auto.
      - exists b. split; auto.
        assert (forall a b c, path N host h a b -> edge N host h b c -> path N host h a c) as snoc.
        { clear. intros a b' c Pa. induction Pa; intros Ed; [eapply path_cons; eauto; constructor; auto|].
          eapply path_cons; eauto. }
        eapply snoc; eauto. }
    eauto.
Qed.

Theorem collect_total h n roots :
  heap_ok h -> all_alive N host h roots -> ~ reachable_cycle N host h roots ->
  exists r, collect N h host n roots = Ok r.
Proof.
  intros [D U] AA NC. unfold collect, mark_all.
  destruct (each (mark N (mark_fuel h) host) roots h) as [h1| | |] eqn:E1.
  - rewrite sweep_spec. eauto.
  - exfalso. eapply marks_not_abort; eauto.
  - exfalso. destruct (marks_ub (mark N (mark_fuel h) host) (mark_ok _) (mark_ub _) _ _ (unmarked_inv _ U) E1)
      as (id & R & G). apply (AA id R). exact G.
  - exfalso. apply NC.
    destruct (marks_fuel (mark N (mark_fuel h) host) (mark_fuel h) (mark_ok _) (mark_fuel_chain _)
                _ _ (unmarked_inv _ U) E1) as (v & id & l & Iv & R & C & L).
    eapply chain_cycle; [|exact C|exact L]. eapply reach_root; eauto.
Qed.

(** On a reachable cycle marking never ends, whatever the fuel. *)
Theorem mark_diverges h roots :
  heap_ok h -> all_alive N host h roots -> reachable_cycle N host h roots ->
  forall fuel, mark_all N fuel host h roots = Fuel.
Proof.
  intros [D U] AA CY fuel. unfold mark_all.
  destruct (each (mark N fuel host) roots h) as [h1| | |] eqn:E1; auto; exfalso.
  - destruct (marks_ok (mark N fuel host) (mark_ok _) _ _ _ (unmarked_inv _ U) E1)
      as (I1 & S1 & _ & T1 & F1).
    destruct CY as (id & R & P).
    assert (Mall : forall id, reachable N host h roots id -> marked h1 id).
    { intros x Rx. induction Rx as [v x Iv Rv|a b Ra IHa Ed]; [eauto|].
      destruct (I1 a IHa) as [_ C]. apply C. eapply edge_skel; [|exact Ed]. congruence. }
    assert (A : Acc (fun b a => edge N host h a b) id).
    { destruct (I1 id (Mall _ R)) as [A _]. eapply acc_skel; eauto. }
    clear - A P. induction A as [x _ IH].
    assert (exists y, edge N host h x y /\ path N host h y y) as (y & Ed & Py); [|eauto].
    { inversion P; subst.
      - exists x; auto.
      - exists b. split; auto.
        assert (forall a b c, path N host h a b -> edge N host h b c -> path N host h a c) as snoc.
        { clear. intros a b' c Pa. induction Pa; intros Ed; [eapply path_cons; eauto; constructor; auto|].
          eapply path_cons; eauto. }
        eapply snoc; eauto. }
  - eapply marks_not_abort; eauto.
  - destruct (marks_ub (mark N fuel host) (mark_ok _) (mark_ub _) _ _ (unmarked_inv _ U) E1)
      as (id & R & G). apply (AA id R). exact G.
Qed.
End Proofs.
