(** * The collector is invisible: simulation proofs *)
From Verif Require Import Base Values Code Heap GCSpec GCProofs VM VMBasics VMSpec VMInv VMFrame VMProofs VMProps GCTransSpec.
Local Open Scope nat_scope.

(** Related outcomes. *)
Definition orel {A B} (P : A -> B -> Prop) (x : outcome A) (y : outcome B) : Prop :=
  match x, y with
  | Ok a, Ok b => P a b
  | Abort, Abort | UB, UB | Fuel, Fuel => True
  | _, _ => False
  end.

Lemma orel_bind {A B A' B'} (P : A -> B -> Prop) (Q : A' -> B' -> Prop) x y f g :
  orel P x y -> (forall a b, P a b -> orel Q (f a) (g b)) -> orel Q (obind x f) (obind y g).
Proof. destruct x, y; simpl; auto; contradiction. Qed.

Section Sim.
Context {H : Type} (M : machine H) (poll : nat -> nat -> bool).
Notation thread := (thread H).
Notation N := (m_natives M).

Definition with_gc (t : thread) h n m : thread :=
  mkThread (t_pc t) (t_fp t) (t_stk t) (t_frames t) (t_ret t) (t_globs t) h (t_next t) n m (t_host t).

Definition hle (h h' : heap) : Prop := forall id o, hget h id = Some o -> hget h' id = Some o.

Lemma sim_shape t u : same_but_garbage t u -> exists h n m, u = with_gc t h n m /\ hle (t_heap t) h.
Proof.
  destruct t, u. unfold same_but_garbage, with_gc. cbn. intros (-> & -> & -> & -> & -> & -> & -> & -> & L).
  eexists _, _, _. split; [reflexivity|exact L].
Qed.
Lemma sim_make t h n m : hle (t_heap t) h -> same_but_garbage t (with_gc t h n m).
Proof. intros L. unfold same_but_garbage. cbn. repeat split; auto. Qed.

(** A set of live objects closed under access. *)
Definition closed (h : heap) (w : H) (S : nat -> Prop) : Prop :=
  forall id, S id -> exists o, hget h id = Some o /\
    forall v id', In v (kids N w (o_body o)) -> ref_of v = Some id' -> S id'.

Definition vin (S : nat -> Prop) (vs : list value) : Prop :=
  forall v id, In v vs -> ref_of v = Some id -> S id.

Definition globs_of (t : thread) : list value := match t_globs t with Some g => g | None => [] end.
Definition holds (t : thread) (K : list value) (r : bool) : list value :=
  K ++ t_stk t ++ globs_of t ++ (if r then [t_ret t] else []).

Definition pinv (t : thread) (K : list value) (r : bool) : Prop :=
  thread_ok t /\ globals_ready M t /\
  exists S, closed (t_heap t) (t_host t) S /\ vin S (holds t K r).

Lemma closed_reach h w S vs : closed h w S -> vin S vs ->
  forall id, reachable N w h vs id -> S id.
Proof.
  intros C V id R. induction R as [v id Hv Hr|id id' R IH (o & v & Ho & Hg & Hr)].
  - eapply V; eauto.
  - destruct (C _ IH) as (o' & Ho' & Hk). rewrite Ho in Ho'. inversion Ho'; subst o'.
    eapply Hk; eauto. apply kids_gives; auto.
Qed.

Lemma alive_closed h w vs : all_alive N w h vs ->
  closed h w (reachable N w h vs) /\ vin (reachable N w h vs) vs.
Proof.
  intros A. split.
  - intros id R. specialize (A _ R). destruct (hget h id) as [o|] eqn:Ho; [|congruence].
    exists o. split; auto. intros v id' Hv Hr. eapply reach_edge; eauto.
    exists o, v. split; auto. split; auto. apply kids_gives; auto.
  - intros v id Hv Hr. eapply reach_root; eauto.
Qed.

Lemma globs_root t : globals_ready M t -> root_values M t = t_ret t :: t_stk t ++ globs_of t.
Proof.
  intros (g & E & L). unfold root_values, globs_of. rewrite E, <- L, firstn_all. reflexivity.
Qed.

Lemma pinv_no_dangling t : pinv t [] true <-> no_dangling M t.
Proof.
  split.
  - intros (OK & G & S & C & V). split; auto. split; auto. intros id R.
    destruct (C id) as (o & Ho & _); [|congruence].
    eapply closed_reach; [exact C| |exact R]. rewrite (globs_root _ G).
    intros v id' Hv Hr. eapply V; eauto. unfold holds. cbn [app].
    rewrite !in_app_iff. cbn in Hv. rewrite in_app_iff in Hv. cbn. tauto.
  - intros (OK & G & A). split; auto. split; auto.
    destruct (alive_closed _ _ _ A) as (C & V). eexists. split; [exact C|].
    intros v id Hv Hr. eapply V; eauto. rewrite (globs_root _ G).
    unfold holds in Hv. cbn [app] in Hv. rewrite !in_app_iff in Hv. cbn in Hv. cbn. rewrite in_app_iff. tauto.
Qed.

(** Changing what is held, not the heap. *)
Lemma pinv_hold t t' K K' r r' : pinv t K r ->
  t_heap t' = t_heap t -> t_host t' = t_host t -> t_nobj t' = t_nobj t -> t_next t' = t_next t ->
  globals_ready M t' ->
  (forall v, In v (holds t' K' r') -> ref_of v = None \/ In v (holds t K r)) ->
  pinv t' K' r'.
Proof.
  intros (OK & G & S & C & V) E1 E2 E3 E4 G' Hh.
  split; [unfold thread_ok in *; rewrite E1, E3, E4; auto|]. split; auto.
  exists S. rewrite E1, E2. split; auto. intros v id Hv Hr.
  destruct (Hh _ Hv) as [X|X]; [congruence|]. eapply V; eauto.
Qed.

(** Looking into an object. *)
Lemma pinv_look t K r v id o : pinv t K r -> In v (holds t K r) -> ref_of v = Some id ->
  hget (t_heap t) id = Some o -> pinv t (kids N (t_host t) (o_body o) ++ K) r.
Proof.
  intros (OK & G & S & C & V) Hv Hr Ho. split; auto. split; auto. exists S. split; auto.
  intros v' id' Hv' Hr'. unfold holds in Hv'. rewrite <- app_assoc, in_app_iff in Hv'.
  destruct Hv' as [X|X]; [|eapply V; eauto].
  destruct (C _ (V _ _ Hv Hr)) as (o' & Ho' & Hk). rewrite Ho in Ho'. inversion Ho'; subst. eauto.
Qed.

Lemma pinv_alive t K r v id : pinv t K r -> In v (holds t K r) -> ref_of v = Some id ->
  exists o, hget (t_heap t) id = Some o.
Proof.
  intros (OK & G & S & C & V) Hv Hr. destruct (C _ (V _ _ Hv Hr)) as (o & Ho & _). eauto.
Qed.

Lemma hget_lt h nx id o : Forall (fun o => o_id o < nx) h -> hget h id = Some o -> id < nx.
Proof.
  intros F. induction F as [|x h Fx F IH]; simpl; [discriminate|].
  destruct (Nat.eqb_spec (o_id x) id); auto. intros E; inversion E; subst; auto.
Qed.

Lemma pinv_alloc t K r b (mk : nat -> value) : pinv t K r ->
  (forall i, ref_of (mk i) = Some i) ->
  known_refs (kids N (t_host t) b) (holds t K r) ->
  pinv (snd (alloc t b)) (mk (t_next t) :: K) r.
Proof.
  intros (OK & G & S & C & V) Mk Kn. unfold alloc. cbn [snd].
  split; [exact (ok3_alloc _ _ _ _ OK)|]. split; [exact G|].
  assert (F : forall id, S id -> id <> t_next t).
  { intros id Si ->. destruct (C _ Si) as (o & Ho & _). destruct OK as (_ & _ & F).
    apply (hget_lt _ _ _ _ F) in Ho. lia. }
  exists (fun id => S id \/ id = t_next t). cbn [t_heap t_host]. split.
  - intros id [Si| ->].
    + destruct (C _ Si) as (o & Ho & Hk). exists o. simpl.
      destruct (Nat.eqb_spec (t_next t) id); [exfalso; eapply F; eauto|]. split; auto.
      intros; left; eauto.
    + eexists. split; [simpl; rewrite Nat.eqb_refl; reflexivity|]. cbn [o_body].
      intros v id' Hv Hr. left. destruct (Kn _ Hv) as [X|X]; [congruence|]. eapply V; eauto.
  - intros v id Hv Hr. destruct Hv as [<-|Hv]; [rewrite Mk in Hr; inversion Hr; auto|].
    left. eapply V; eauto.
Qed.

Lemma pinv_hset t K r id o fs k v : pinv t K r -> In v (holds t K r) -> hget (t_heap t) id = Some o ->
  o_body o = BStruct fs ->
  pinv (with_heap t (hset (t_heap t) id (fun o => mkObj (o_id o) (o_mark o) (BStruct (update fs k v))))) K r.
Proof.
  intros (OK & G & S & C & V) Hv Ho Hb.
  split; [exact (ok3_set _ _ _ _ _ _ _ OK)|]. split; [exact G|].
  exists S. split; [|exact V]. intros x Sx. cbn [t_heap with_heap t_host].
  destruct (C _ Sx) as (ox & Hox & Hk).
  rewrite hget_hset by reflexivity. destruct (Nat.eqb_spec id x) as [->|Ne]; [|eauto].
  rewrite Ho in Hox. inversion Hox; subst ox. rewrite Ho. eexists. split; [reflexivity|].
  cbn [o_body kids]. intros v' id' Hv' Hr.
  assert (In v' fs \/ v' = v) as [X| ->].
  { clear - Hv'. revert k Hv'. induction fs as [|a l IH]; intros [|k] X; simpl in *; try tauto.
    - destruct X; auto.
    - destruct X as [X|X]; auto. apply IH in X. tauto. }
  - eapply Hk; eauto. rewrite Hb. exact X.
  - eapply V; eauto.
Qed.

Lemma pinv_host t K r w : pinv t K r ->
  (forall p a v, In v (n_children N p w a) ->
       ref_of v = None \/ In v K \/ In v (n_children N p (t_host t) a)) ->
  pinv (with_host t w) K r.
Proof.
  intros (OK & G & S & C & V) Hw. split; [exact OK|]. split; [exact G|]. exists S. split; [|exact V].
  intros id Si. cbn [t_heap with_host t_host]. destruct (C _ Si) as (o & Ho & Hk). exists o. split; auto.
  intros v id' Hv Hr. destruct (o_body o) as [|a p|fs]; cbn [kids] in *; eauto.
  destruct (p =? 0); [destruct Hv|]. destruct (Hw _ _ _ Hv) as [X|[X|X]]; [congruence| |eauto].
  eapply V; eauto. unfold holds. apply in_app_iff; auto.
Qed.

Lemma values_equal_sim t K r h a b : pinv t K r -> In a (holds t K r) -> In b (holds t K r) ->
  hle (t_heap t) h -> values_equal (t_heap t) a b = values_equal h a b.
Proof.
  intros P Ha Hb L.
  assert (A : forall v, In v (holds t K r) ->
     str_content (t_heap t) v = str_content h v /\ to_addr (t_heap t) v = to_addr h v).
  { intros v Hv. destruct v; try (split; reflexivity);
    destruct (pinv_alive _ _ _ _ _ P Hv eq_refl) as (o & Ho);
    unfold str_content, to_addr; rewrite Ho, (L _ _ Ho); auto. }
  destruct a, b; try reflexivity; unfold values_equal;
    rewrite ?(proj1 (A _ Ha)), ?(proj1 (A _ Hb)), ?(proj2 (A _ Ha)), ?(proj2 (A _ Hb)); reflexivity.
Qed.

Definition RI K r (t u : thread) : Prop := same_but_garbage t u /\ pinv t K r.

(** The new hold list consists of old holdings and non-objects. *)
Ltac held := intros ?v; unfold holds, globs_of; cbn;
  rewrite ?in_app_iff; cbn; intuition (subst; auto).

Definition post (x y : value * thread) : Prop :=
  fst x = fst y /\ RI [fst x] false (snd x) (snd y).

(** No call [p] makes from [u] visits a cyclic state. *)
Definition calm (p : fprog H) (u : thread) : Prop :=
  forall f a t0 t1 s, passes M no_poll p u f a t0 -> enter_call M t0 f a = Ok t1 ->
    visits M no_poll (Some (length (t_frames t0))) t1 s -> ~ has_cycle M s.

Section Step.
Variable n : nat.
Notation callT := (call_function M poll n).
Notation callU := (call_function M no_poll n).
Hypothesis Call : forall t u f a, RI a true t u ->
  (forall t1 s, enter_call M u f a = Ok t1 ->
     visits M no_poll (Some (length (t_frames u))) t1 s -> ~ has_cycle M s) ->
  orel post (callT t f a) (callU u f a).

Lemma sim_alloc (t u : thread) b : same_but_garbage t u ->
  same_but_garbage (snd (alloc t b)) (snd (alloc u b)) /\ fst (alloc t b) = fst (alloc u b).
Proof.
  intros R. destruct (sim_shape _ _ R) as (h & k & m & -> & L). split; [|reflexivity].
  unfold same_but_garbage. cbn. repeat (split; [reflexivity|]).
  intros id o. destruct (t_next t =? id); auto.
Qed.

Lemma glob_in (t : thread) i v : get_global M t i = Ok v -> In v (globs_of t).
Proof.
  unfold get_global, oassert, glob_at, globs_of. destruct (_ && _)%bool; [|discriminate].
  destruct (t_globs t); [|discriminate]. destruct (nth_error l _) eqn:E; [|discriminate].
  intros X; inversion X; subst. eapply nth_error_In; eauto.
Qed.

Lemma in_update {A} (l : list A) k v x : In x (update l k v) -> In x l \/ x = v.
Proof.
  unfold update. rewrite in_app_iff. intros [X|X].
  - left. rewrite <- (firstn_skipn k l). apply in_app_iff; auto.
  - destruct (skipn k l) as [|y m] eqn:E; [destruct X|]. destruct X as [->|X]; auto. left.
    rewrite <- (firstn_skipn k l), E. apply in_app_iff. right. right. exact X.
Qed.


Lemma set_global_sim t u i v K r : RI K r t u -> known_refs [v] (holds t K r) ->
  orel (RI K r) (set_global M t i v) (set_global M u i v).
Proof.
  intros [R P] Kv. destruct (sim_shape _ _ R) as (h & k & m & -> & L).
  unfold set_global, oassert, glob_put, with_gc. cbn [t_globs].
  destruct (_ && _)%bool; cbn [orel]; auto. destruct (t_globs t) as [g|] eqn:G; cbn [orel]; auto.
  destruct (Z.to_nat i <? length g); cbn [orel]; auto. split.
  - unfold same_but_garbage. cbn. repeat split; auto.
  - eapply pinv_hold; [exact P| | | | | |]; try reflexivity.
    + destruct P as (_ & (g' & G1 & G2) & _). rewrite G in G1. inversion G1; subst g'.
      eexists. split; [reflexivity|]. rewrite update_length. auto.
    + intros x Hx. unfold holds, globs_of in Hx |- *. cbn in Hx. rewrite G. rewrite !in_app_iff in *.
      destruct Hx as [X|[X|[X|X]]]; auto.
      * apply in_update in X. destruct X as [X| ->]; auto.
        specialize (Kv v (or_introl eq_refl)). unfold holds, globs_of in Kv. rewrite G, !in_app_iff in Kv. auto.
Qed.

Lemma known_app vs K L : known_refs vs K -> known_refs vs (K ++ L).
Proof. intros A v Hv. destruct (A v Hv); auto. right. apply in_app_iff; auto. Qed.

Lemma pinv_more t K r v : pinv t K r -> known_refs [v] (holds t K r) -> pinv t (v :: K) r.
Proof.
  intros P Kv. eapply pinv_hold; [exact P|reflexivity..| |].
  - apply P.
  - intros x [<-|X]; [apply Kv; left; auto|auto].
Qed.

Lemma pinv_less t K K' r r' : pinv t K r -> known_refs K' (holds t K r) -> (r' = true -> r = true) -> pinv t K' r'.
Proof.
  intros P Kv Rr. eapply pinv_hold; [exact P|reflexivity..| |].
  - apply P.
  - intros x X. unfold holds in X. rewrite !in_app_iff in X. destruct X as [X|[X|[X|X]]].
    + apply Kv; auto.
    + right. unfold holds. rewrite !in_app_iff. auto.
    + right. unfold holds. rewrite !in_app_iff. auto.
    + right. unfold holds. rewrite !in_app_iff. destruct r'; [|destruct X]. rewrite (Rr eq_refl). auto.
Qed.

Lemma fprog_sim w args K r p : respects M w args K r p ->
  forall t u, t_host t = w -> RI K r t u -> known_refs args (t_stk t) -> calm p u ->
  orel post (run_fprog M callT p t) (run_fprog M callU p u).
Proof.
  induction 1 as [w args K r v Kv|w args K r|w args K r|w args K r k D IH|w args K r w' k Hw D IH
    |w args K r v k Hv D IH|w args K r s k D IH|w args K r a pr k Hk D IH|w args K r i k D IH
    |w args K r i v k Kv D IH|w args K f a k keep Ka Kp D IH];
    intros t u W RIu Sa Cm; pose proof RIu as [R P]; cbn [run_fprog].
  - cbn. split; [reflexivity|]. split; [exact R|]. eapply pinv_less; [exact P| |discriminate].
    apply known_app. exact Kv.
  - exact I.
  - exact I.
  - assert (t_host u = t_host t) as -> by (symmetry; apply R). rewrite W. apply IH; auto.
    intros f a t0 t1 s Ps. apply Cm. constructor. replace (t_host u) with w; auto. rewrite <- W. apply R.
  - apply IH; auto.
    + split.
      * destruct (sim_shape _ _ R) as (h & k0 & m & -> & L). apply (sim_make (with_host t w')); auto.
      * apply pinv_host; auto. rewrite W. auto.
    + intros f a t0 t1 s Ps. apply Cm. constructor. auto.
  - destruct (ref_of v) as [id|] eqn:Rv; [|exact I].
    assert (Hh : In v (holds t K r)) by (apply in_app_iff; auto).
    destruct (pinv_alive _ _ _ _ _ P Hh Rv) as (o & Ho). rewrite Ho.
    assert (Hu : hget (t_heap u) id = Some o) by (apply R; auto). rewrite Hu.
    apply IH; auto.
    + split; auto. rewrite <- W. eapply pinv_look; eauto.
    + intros f a t0 t1 s Ps. apply Cm. econstructor; eauto.
  - destruct (sim_alloc t u (BStr s) R) as (R' & E').
    change (orel post (run_fprog M callT (k (VStr (fst (alloc t (BStr s))))) (snd (alloc t (BStr s))))
       (run_fprog M callU (k (VStr (fst (alloc u (BStr s))))) (snd (alloc u (BStr s))))).
    rewrite <- E'. cbn [alloc fst]. apply IH; auto.
    + split; auto. apply (pinv_alloc t K r (BStr s) VStr); auto. intros x [].
    + intros f a t0 t1 s0 Ps. apply Cm. constructor. rewrite <- E'. exact Ps.
  - destruct (sim_alloc t u (BNative a pr) R) as (R' & E').
    replace (t_pc u) with (t_pc t) by apply R. unfold oassert. destruct (0 <=? t_pc t)%Z; [|exact I].
    change (orel post (run_fprog M callT (k (VNative (fst (alloc t (BNative a pr))))) (snd (alloc t (BNative a pr))))
       (run_fprog M callU (k (VNative (fst (alloc u (BNative a pr))))) (snd (alloc u (BNative a pr))))).
    rewrite <- E'. cbn [alloc fst]. apply IH; auto.
    + split; auto. apply (pinv_alloc t K r (BNative a pr) VNative); auto. apply known_app. rewrite W. exact Hk.
    + intros f b t0 t1 s0 Ps. apply Cm. constructor. rewrite <- E'. exact Ps.
  - assert (get_global M u i = get_global M t i) as ->.
    { unfold get_global, glob_at. replace (t_globs u) with (t_globs t) by apply R. reflexivity. }
    destruct (get_global M t i) as [v| | |] eqn:G; try exact I.
    apply IH; auto.
    + split; auto. apply pinv_more; auto. intros x [<-|[]]. right. apply glob_in in G.
      unfold holds. rewrite !in_app_iff. auto.
    + intros f a t0 t1 s Ps. apply Cm. econstructor; eauto.
      unfold get_global, glob_at in *. replace (t_globs u) with (t_globs t) by apply R. exact G.
  - pose proof (set_global_sim t u i v K r RIu (known_app _ _ _ Kv)) as SG.
    destruct (set_global M t i v) as [t1| | |] eqn:Et, (set_global M u i v) as [u1| | |] eqn:Eu;
      try (destruct SG; fail); try exact I.
    assert (Hst : t_host t1 = w /\ t_stk t1 = t_stk t).
    { unfold set_global, oassert, glob_put in Et. destruct (_ && _)%bool; [|discriminate].
      destruct (t_globs t); [|discriminate]. destruct (_ <? _); inversion Et; subst; auto. }
    destruct Hst as [W1 S1]. apply IH; auto.
    + rewrite S1; auto.
    + intros f a t0 t2 s Ps. apply Cm. econstructor; eauto.
  - assert (CS : orel post (callT t f a) (callU u f a)).
    { apply Call.
      - split; auto. eapply pinv_less; [exact P| |auto]. apply known_app. exact Ka.
      - intros t1 s En V. eapply Cm; eauto. constructor. }
    destruct (callT t f a) as [[v t1]| | |] eqn:Et, (callU u f a) as [[v' u1]| | |] eqn:Eu;
      try (destruct CS; fail); try exact I.
    destruct CS as [Ev [R1 P1]]. cbn [fst snd] in *. subst v'.
    assert (CU : calls M no_poll u f a (Ok (v, u1))) by (split; [discriminate|eauto]).
    assert (St : known_refs (if keep then args else []) (t_stk t1)).
    { destruct keep; [|intros x []]. specialize (Kp eq_refl _ _ _ CU).
      replace (t_stk t1) with (t_stk t); auto.
      transitivity (t_stk u); [apply R|]. rewrite <- Kp. symmetry. apply R1. }
    apply (IH (t_host t1) v); auto.
    + split; auto. eapply pinv_less; [exact P1| |discriminate].
      intros x [<-|X]; [right; left; auto|]. destruct (St x X); auto. right.
      unfold holds. rewrite !in_app_iff. auto.
    + intros g b t0 t2 s Ps. apply Cm. econstructor; eauto.
Qed.

Lemma RI_hold t u t' u' K K' r r' : RI K r t u -> same_but_garbage t' u' ->
  t_heap t' = t_heap t -> t_host t' = t_host t -> t_nobj t' = t_nobj t -> t_next t' = t_next t ->
  globals_ready M t' ->
  (forall v, In v (holds t' K' r') -> ref_of v = None \/ In v (holds t K r)) ->
  RI K' r' t' u'.
Proof. intros [_ P] R' E1 E2 E3 E4 G Hh. split; auto. eapply pinv_hold; eauto. Qed.

Lemma push_sim t u v K r : RI (v :: K) r t u -> orel (RI K r) (push M t v) (push M u v).
Proof.
  intros RIu. pose proof RIu as [R P]. destruct (sim_shape _ _ R) as (h & k & m & -> & L).
  unfold push. cbn [t_stk with_gc]. destruct (room M _); cbn [orel]; auto.
  eapply RI_hold; [exact RIu|apply (sim_make (with_stk t (v :: t_stk t))); auto|reflexivity..|apply P|].
  intros x. unfold holds, globs_of. cbn. repeat (rewrite in_app_iff; cbn). tauto.
Qed.

Lemma push_const t u v K r : RI K r t u -> ref_of v = None -> orel (RI K r) (push M t v) (push M u v).
Proof.
  intros [R P] Hv. apply push_sim. split; auto. apply pinv_more; auto. intros x [<-|[]]; auto.
Qed.

Lemma slot_in s i v : slot s i = Ok v -> In v s.
Proof.
  unfold slot. destruct (_ <? _); [|discriminate]. destruct (nth_error _ _) eqn:E; [|discriminate].
  intros X; inversion X; subst. eapply nth_error_In; eauto.
Qed.

Lemma in_skipn {A} k (l : list A) x : In x (skipn k l) -> In x l.
Proof. intros X. rewrite <- (firstn_skipn k l). apply in_app_iff; auto. Qed.
Lemma in_firstn {A} k (l : list A) x : In x (firstn k l) -> In x l.
Proof. intros X. rewrite <- (firstn_skipn k l). apply in_app_iff; auto. Qed.

Lemma cut_in s k s' x : cut s k = Ok s' -> In x s' -> In x s.
Proof. unfold cut. destruct (_ <=? _); [|discriminate]. intros E; inversion E; subst. apply in_skipn. Qed.

Lemma pop_sim t u K r : RI K r t u ->
  orel (fun x y => fst x = fst y /\ RI (fst x :: K) r (snd x) (snd y) /\ t_stk t = fst x :: t_stk (snd x))
    (pop t) (pop u).
Proof.
  intros RIu. pose proof RIu as [R P]. destruct (sim_shape _ _ R) as (h & k & m & -> & L).
  unfold pop. cbn [t_stk with_gc]. destruct (t_stk t) as [|v s] eqn:S; cbn [orel]; auto. cbn [fst snd].
  split; auto. split; auto.
  eapply RI_hold; [exact RIu|apply (sim_make (with_stk t s)); auto|reflexivity..|apply P|].
  intros x. unfold holds, globs_of. cbn. rewrite S. repeat (rewrite in_app_iff; cbn). tauto.
Qed.

Lemma pop_indir_sim t u K r : RI K r t u -> orel (RI K r) (pop_indir t) (pop_indir u).
Proof.
  intros RIu. pose proof RIu as [R P]. destruct (sim_shape _ _ R) as (h & k & m & -> & L).
  unfold pop_indir. cbn [t_stk with_gc t_frames t_fp]. destruct (t_frames t) as [|f fr]; cbn [orel]; auto.
  destruct (f_nargs f <=? t_fp t); cbn [orel]; auto.
  destruct (cut (t_stk t) (t_fp t)); cbn [orel]; auto.
  destruct (cut (t_stk t) (t_fp t - f_nargs f)) as [s| | |] eqn:C; cbn [orel]; auto.
  eapply RI_hold; [exact RIu|apply (sim_make (with_ctl t (f_pc f) (f_fp f) s fr)); auto|reflexivity..|apply P|].
  intros x. unfold holds, globs_of. cbn. rewrite !in_app_iff. intros [X|[X|X]]; auto.
  right. right. left. eapply cut_in; eauto.
Qed.

Lemma glob_put_sim t u i v K r : RI (v :: K) r t u -> orel (RI K r) (glob_put t i v) (glob_put u i v).
Proof.
  intros RIu. pose proof RIu as [R P]. destruct (sim_shape _ _ R) as (h & k & m & -> & L).
  unfold glob_put. cbn [t_globs with_gc]. destruct (t_globs t) as [g|] eqn:G; cbn [orel]; auto.
  destruct (Z.to_nat i <? length g); cbn [orel]; auto.
  eapply RI_hold; [exact RIu|apply (sim_make (with_globs t (Some (update g (Z.to_nat i) v)))); auto|reflexivity..| |].
  - destruct P as (_ & (g' & G1 & G2) & _). rewrite G in G1. inversion G1; subst g'.
    eexists. split; [reflexivity|]. rewrite update_length. auto.
  - intros x Hx. unfold holds, globs_of in Hx |- *. cbn in Hx. cbn. rewrite G.
    repeat (rewrite in_app_iff in Hx; cbn in Hx). repeat (rewrite in_app_iff; cbn).
    destruct Hx as [X|[X|[X|X]]]; try tauto. apply in_update in X. destruct X as [X| ->]; tauto.
Qed.

(** Only the top of the stack changed, to non-objects. *)
Lemma restack t u s K r : RI K r t u -> 
  (forall v, In v s -> ref_of v = None \/ In v (holds t K r)) ->
  RI K r (with_stk t s) (with_stk u s).
Proof.
  intros RIu Hs. pose proof RIu as [R P]. destruct (sim_shape _ _ R) as (h & k & m & -> & L).
  eapply RI_hold; [exact RIu|apply (sim_make (with_stk t s)); auto|reflexivity..|apply P|].
  intros x. unfold holds at 1. unfold globs_of. cbn. rewrite !in_app_iff. intros [X|[X|X]]; auto.
  - right. unfold holds. rewrite !in_app_iff; auto.
  - right. unfold holds, globs_of. rewrite !in_app_iff. tauto.
Qed.

Lemma pc_sim t u pc K r : RI K r t u -> RI K r (with_pc t pc) (with_pc u pc).
Proof.
  intros RIu. pose proof RIu as [R P]. destruct (sim_shape _ _ R) as (h & k & m & -> & L).
  eapply RI_hold; [exact RIu|apply (sim_make (with_pc t pc)); auto|reflexivity..|apply P|auto].
Qed.

Lemma ret_sim t u v K r : RI (v :: K) r t u -> RI K true (with_ret t v) (with_ret u v).
Proof.
  intros RIu. pose proof RIu as [R P]. destruct (sim_shape _ _ R) as (h & k & m & -> & L).
  eapply RI_hold; [exact RIu|apply (sim_make (with_ret t v)); auto|reflexivity..|apply P|].
  intros x. unfold holds, globs_of. cbn. repeat (rewrite in_app_iff; cbn). tauto.
Qed.

Lemma push_indir_sim t u k K r : RI K r t u -> orel (RI K r) (push_indir M t k) (push_indir M u k).
Proof.
  intros RIu. pose proof RIu as [R P]. destruct (sim_shape _ _ R) as (h & x & m & -> & L).
  unfold push_indir, oassert. cbn [t_stk with_gc t_frames t_fp t_pc]. destruct (_ <? _); cbn [orel]; auto.
  eapply RI_hold; [exact RIu|apply sim_make with (t := with_ctl t _ _ _ _); auto|reflexivity..|apply P|auto].
Qed.

Lemma do_bin_nonref o a b v : do_bin o a b = Ok v -> ref_of v = None.
Proof.
  unfold do_bin, bin_op, bin_op_int, rel_op, int64_result.
  destruct o, a, b; cbn; try discriminate; intros E;
  repeat match type of E with context [if ?c then _ else _] => destruct c; try discriminate
  | context [match ?c with Ok _ => _ | _ => _ end] => destruct c; try discriminate end;
  inversion E; subst; reflexivity.
Qed.
Lemma add_raw_nonref d a v : add_raw d a = Ok v -> ref_of v = None.
Proof.
  unfold add_raw, int64_result. destruct a; try discriminate; destruct (in_int64 _); try discriminate;
  intros E; inversion E; subst; reflexivity.
Qed.

Hypothesis Resp : foreign_respects M.

Lemma exec_sim i t u : RI [] true t u ->
  (forall c k fn, i = ICallF c k -> nth_error (m_foreign M) (Z.to_nat k) = Some fn ->
     calm (fn (top_args (t_stk u) (Z.to_nat c))) u) ->
  orel (RI [] true) (exec M callT i t) (exec M callU i u).
Proof.
  intros RIu Cm. pose proof RIu as [R P]. destruct (sim_shape _ _ R) as (h & x & m & Eu & L).
  assert (Es : t_stk u = t_stk t) by (subst u; reflexivity).
  assert (Stk : forall v, In v (t_stk t) -> In v (holds t [] true)).
  { intros v. unfold holds. cbn [app]. rewrite !in_app_iff. auto. }
  destruct i as [ |n0| | |k| | |k|k|k|k|n0|k|k|o| | | | |k|k|k|k|n0 f| | |n0 f|k|k|k| |]; cbn [exec]; rewrite ?Es;
    try (apply push_const; [exact RIu|reflexivity]).
  - (* IPushNullN *)
    destruct (room M _); cbn [orel]; auto. apply restack; auto.
    intros v. rewrite in_app_iff. intros [X|X]; auto. apply repeat_spec in X. subst; auto.
  - destruct (k <? 0)%Z; cbn [orel]; auto. destruct (nth_error _ _); cbn [orel]; auto.
    apply push_const; auto.
  - destruct (k <? 0)%Z; cbn [orel]; auto. destruct (nth_error _ _); cbn [orel]; auto.
    apply push_const; auto.
  - (* IPushStruct *)
    unfold oassert. destruct (0 <? n0)%Z; cbn [orel]; auto. destruct (_ <=? _); cbn [orel]; auto.
    destruct (sim_alloc t u (BStruct (top_args (t_stk t) (Z.to_nat n0))) R) as (R' & E').
    assert (PA := pinv_alloc t [] true (BStruct (top_args (t_stk t) (Z.to_nat n0))) VStruct P
      (fun i => eq_refl)).
    set (b := BStruct (top_args (t_stk t) (Z.to_nat n0))) in *.
    change (orel (RI [] true)
      (push M (with_stk (snd (alloc t b)) (skipn (Z.to_nat n0) (t_stk t))) (VStruct (fst (alloc t b))))
      (push M (with_stk (snd (alloc u b)) (skipn (Z.to_nat n0) (t_stk t))) (VStruct (fst (alloc u b))))).
    rewrite <- E'. apply push_sim. apply restack.
    + split; [exact R'|]. apply PA. unfold b. cbn [kids]. intros v Hv. right. apply Stk. unfold top_args in Hv.
      apply in_rev in Hv. eapply in_firstn; eauto.
    + intros v Hv. right. apply in_skipn in Hv. unfold holds. rewrite !in_app_iff. cbn [alloc snd t_stk]. auto.
  - (* IStructGet *)
    destruct (t_stk t) as [|v s] eqn:S; cbn [orel]; auto.
    destruct v; cbn [orel]; auto.
    assert (Hv : In (VStruct id) (holds t [] true)) by (apply Stk; left; auto).
    destruct (pinv_alive _ _ _ _ _ P Hv eq_refl) as (o & Ho). rewrite Ho.
    assert (Hu : hget (t_heap u) id = Some o) by (apply R; auto). rewrite Hu.
    destruct o as [oi om [ | |fs]]; cbn [orel]; auto.
    destruct (nth_error fs (Z.to_nat k)) as [v|] eqn:F; cbn [orel]; auto.
    pose proof (pinv_look _ _ _ _ _ _ P Hv eq_refl Ho) as P2. cbn [o_body kids] in P2.
    assert (RI [v] true t u) as R2.
    { split; auto. eapply pinv_less; [exact P2| |auto]. intros y [<-|[]]. right.
      unfold holds. rewrite !in_app_iff. left. left. eapply nth_error_In; eauto. }
    apply (restack _ _ (v :: s)) in R2.
    2:{ intros y [<-|X]; right; [left; auto|]. unfold holds. rewrite !in_app_iff, S. right. left. right. auto. }
    eapply RI_hold; [exact R2|apply R2|reflexivity..|apply R2|].
    intros y. unfold holds. cbn. tauto.
  - (* IStructSet *)
    destruct (t_stk t) as [|v [|v2 s]] eqn:S; cbn [orel]; auto; destruct v; cbn [orel]; auto.
    assert (Hv : In (VStruct id) (holds t [] true)) by (apply Stk; left; auto).
    destruct (pinv_alive _ _ _ _ _ P Hv eq_refl) as (o & Ho). rewrite Ho.
    assert (Hu : hget (t_heap u) id = Some o) by (apply R; auto). rewrite Hu.
    destruct o as [oi om [ | |fs]]; cbn [orel]; auto.
    destruct (Z.to_nat k <? length fs); cbn [orel]; auto.
    set (F := fun o0 => mkObj (o_id o0) (o_mark o0) (BStruct (update fs (Z.to_nat k) v2))).
    assert (Q : RI [] true (with_heap t (hset (t_heap t) id F)) (with_heap u (hset (t_heap u) id F))).
    { split.
      - subst u. unfold same_but_garbage. cbn. repeat (split; [reflexivity|]).
        intros y o. rewrite !hget_hset by reflexivity. destruct (Nat.eqb_spec id y) as [->|Ne]; [|apply L].
        rewrite Ho. cbn in Hu. rewrite Hu. auto.
      - eapply pinv_hset; [exact P| |exact Ho|reflexivity]. apply Stk. right. left. auto. }
    apply (restack _ _ s) in Q.
    2:{ intros y Hy. right. unfold holds. rewrite !in_app_iff. cbn [t_stk with_heap]. rewrite S. right. left. right. right. auto. }
    exact Q.
  - (* IBin *)
    destruct (t_stk t) as [|b [|a s]] eqn:S; cbn [orel]; auto.
    destruct (do_bin o a b) as [v| | |] eqn:E; cbn [obind orel]; auto.
    apply restack; auto. intros y [<-|Hy]; [left; eapply do_bin_nonref; eauto|right].
    apply Stk. right. right. auto.
  - destruct (t_stk t) as [|a s] eqn:S; cbn [orel]; auto.
    destruct (add_raw 1 a) as [v| | |] eqn:E; cbn [obind orel]; auto.
    apply restack; auto. intros y [<-|Hy]; [left; eapply add_raw_nonref; eauto|right]. apply Stk. right. auto.
  - destruct (t_stk t) as [|a s] eqn:S; cbn [orel]; auto.
    destruct (add_raw (-1) a) as [v| | |] eqn:E; cbn [obind orel]; auto.
    apply restack; auto. intros y [<-|Hy]; [left; eapply add_raw_nonref; eauto|right]. apply Stk. right. auto.
  - (* IEqu *)
    destruct (t_stk t) as [|b [|a s]] eqn:S; cbn [orel]; auto.
    rewrite (values_equal_sim t [] true (t_heap u) a b P); [|apply Stk; right; left; auto|apply Stk; left; auto|red; apply R].
    destruct (values_equal _ a b); cbn [obind orel]; auto.
    apply restack; auto. intros y [<-|Hy]; [left; auto|right]. apply Stk. right. right. auto.
  - destruct (t_stk t) as [|a s] eqn:S; cbn [orel]; auto.
    destruct (expect_bool a); cbn [obind orel]; auto.
    apply restack; auto. intros y [<-|Hy]; [left; auto|right]. apply Stk. right. auto.
  - (* ISet *)
    eapply orel_bind; [apply (pop_sim _ _ _ _ RIu)|]. intros [v t1] [v' u1] (Ev & Q & _). cbn [fst snd] in *. subst v'.
    apply glob_put_sim. exact Q.
  - (* IGet *)
    assert (glob_at u k = glob_at t k) as -> by (subst u; reflexivity).
    destruct (glob_at t k) as [v| | |] eqn:G; cbn [obind orel]; auto. apply push_sim. split; auto.
    apply pinv_more; auto. intros y [<-|[]]. right. unfold holds. rewrite !in_app_iff. right. right. left.
    unfold glob_at, globs_of in *. destruct (t_globs t); [|discriminate]. destruct (nth_error _ _) eqn:Nx; inversion G; subst.
    eapply nth_error_In; eauto.
  - cbn [orel]. apply pc_sim; auto.
  - (* IGotoz *)
    eapply orel_bind; [apply (pop_sim _ _ _ _ RIu)|]. intros [v t1] [v' u1] (Ev & Q & S). cbn [fst snd] in *. subst v'.
    assert (Q' : RI [] true t1 u1).
    { split; [apply Q|]. eapply pinv_less; [apply Q|intros ? []|auto]. }
    destruct (expect_bool v) as [[]| | |]; cbn [obind orel]; auto. apply pc_sim; auto.
  - (* ICall *)
    eapply orel_bind; [apply (push_indir_sim _ _ _ _ _ RIu)|]. intros t1 u1 Q.
    destruct (nth_error _ _); cbn [orel]; auto. apply pc_sim; auto.
  - (* IReturn *)
    apply pop_indir_sim. apply (ret_sim _ _ VNull _ true). split; auto. apply pinv_more; auto. intros y [<-|[]]; auto.
  - eapply orel_bind; [apply (pop_sim _ _ _ _ RIu)|]. intros [v t1] [v' u1] (Ev & Q & S). cbn [fst snd] in *. subst v'.
    apply pop_indir_sim. apply ret_sim with (r := true). exact Q.
  - (* ICallF *)
    destruct (_ <=? _); cbn [orel]; auto. destruct (nth_error (m_foreign M) (Z.to_nat f)) as [fn|] eqn:F; cbn [orel]; auto.
    assert (In fn (m_foreign M)) as In1 by (eapply nth_error_In; eauto).
    assert (Ka : known_refs (top_args (t_stk t) (Z.to_nat n0)) (t_stk t)).
    { intros v Hv. right. unfold top_args in Hv. apply in_rev in Hv. eapply in_firstn; eauto. }
    assert (FS : orel post (run_fprog M callT (fn (top_args (t_stk t) (Z.to_nat n0))) t)
                  (run_fprog M callU (fn (top_args (t_stk t) (Z.to_nat n0))) u)).
    { eapply fprog_sim; [apply (Resp _ (t_host t) _ In1)|reflexivity| |exact Ka|].
      - split; auto. eapply pinv_less; [exact P| |auto]. intros v Hv. destruct (Ka v Hv); auto.
      - rewrite <- Es. eapply Cm; eauto. }
    eapply orel_bind; [exact FS|]. intros [v t1] [v' u1] [Ev Q]. cbn [fst snd] in *. subst v'.
    assert (t_stk u1 = t_stk t1) as Es1 by (symmetry; apply Q). rewrite Es1.
    destruct (cut (t_stk t1) _) as [s| | |] eqn:C; cbn [obind orel]; auto.
    apply (ret_sim _ _ v [] false). apply restack; auto. intros y Hy. right.
    unfold holds. rewrite !in_app_iff. right. left. eapply cut_in; eauto.
  - replace (t_fp u) with (t_fp t) by apply R. destruct (slot _ _) as [v| | |] eqn:Sl; cbn [obind orel]; auto. apply push_sim. split; auto.
    apply pinv_more; auto. intros y [<-|[]]. right. apply Stk. eapply slot_in; eauto.
  - replace (t_fp u) with (t_fp t) by apply R. destruct (slot _ _) as [v| | |] eqn:Sl; cbn [obind orel]; auto. apply push_sim. split; auto.
    apply pinv_more; auto. intros y [<-|[]]. right. apply Stk. eapply slot_in; eauto.
  - (* ISetLocal *)
    eapply orel_bind; [apply (pop_sim _ _ _ _ RIu)|]. intros [v t1] [v' u1] (Ev & Q & S). cbn [fst snd] in *. subst v'.
    replace (t_fp u) with (t_fp t) by apply R. replace (t_stk u1) with (t_stk t1) by apply Q.
    unfold set_slot. destruct (_ <? _); cbn [obind orel]; auto.
    assert (Q2 : RI [v] true (with_stk t1 (update (t_stk t1) (length (t_stk t1) - 1 - local_slot (t_fp t) k) v))
                  (with_stk u1 (update (t_stk t1) (length (t_stk t1) - 1 - local_slot (t_fp t) k) v))).
    { apply restack; auto. intros y Hy. right. apply in_update in Hy. unfold holds. rewrite !in_app_iff.
      destruct Hy as [Hy| ->]; auto. left; left; auto. }
    split; [apply Q2|]. eapply pinv_less; [apply Q2|intros ? []|auto].
  - replace (t_ret u) with (t_ret t) by apply R. apply push_sim. split; auto. apply pinv_more; auto.
    intros y [<-|[]]. right. unfold holds. rewrite !in_app_iff. right. right. right. left; auto.
  - cbn [orel]. apply pc_sim; auto.
Qed.

Hypothesis Silent : silent_finalizers M.

Lemma finalize_silent w l : finalize_all N w l = w.
Proof.
  unfold finalize_all. induction l as [|o l IH] in w |- *; simpl; auto.
  rewrite IH. destruct (o_body o); auto. destruct (prop =? 0); auto.
Qed.

Lemma cycle_up t u : globals_ready M t -> same_but_garbage t u -> has_cycle M t -> has_cycle M u.
Proof.
  intros G R (id & Rc & Pt). pose proof R as (_ & _ & Rs & _ & Rr & Rg & _ & Rh & L).
  assert (E : forall a b, edge N (t_host t) (t_heap t) a b -> edge N (t_host u) (t_heap u) a b).
  { intros a b (o & v & Ho & Hg & Hr). exists o, v. rewrite <- Rh. auto. }
  exists id. split.
  - clear Pt. replace (root_values M u) with (root_values M t).
    + induction Rc as [v x Hv Hr|x y _ IH Ed]; [eapply reach_root; eauto|eapply reach_edge; [exact IH|auto]].
    + unfold root_values. rewrite Rs, Rr, Rg. reflexivity.
  - clear Rc. revert Pt. generalize id at 1 3. intros id' Pt. induction Pt as [a b Ed|a b c Ed _ IH]; [apply path_one; auto|eapply path_cons; [apply E; exact Ed|exact IH]].
Qed.

Lemma gc_sim t u : RI [] true t u -> ~ has_cycle M u -> exists t', gc M t = Ok t' /\ RI [] true t' u.
Proof.
  intros [R P] Nc. pose proof P as P'. apply pinv_no_dangling in P'. destruct P' as (OK & G & A).
  destruct (gc_total_L M poll t OK) as [t' Gt]; auto.
  { intros _. destruct G as (g & E & Lg). exists g. split; auto. lia. }
  { intros X. apply Nc. eapply cycle_up; eauto. }
  exists t'. split; auto. pose proof (gc_frame _ _ _ Gt) as (F1 & F2 & F3 & F4 & F5 & F6 & F7).
  destruct (gc_exact_L M poll t t' OK Gt) as (Live & dead & K & D & W & _ & _ & OK' & Rv & _).
  rewrite finalize_silent in W.
  split.
  - destruct R as (R1 & R2 & R3 & R4 & R5 & R6 & R7 & R8 & L). unfold same_but_garbage.
    rewrite F1, F2, F3, F4, F5, F6, F7, W. repeat (split; [assumption|]).
    intros id o Ho. apply L. eapply gc_heap; eauto.
  - apply pinv_no_dangling. split; auto. split.
    { unfold globals_ready in *. rewrite F6. exact G. }
    rewrite Rv, W. intros id Rid.
    assert (Rid' : reachable N (t_host t) (t_heap t) (root_values M t) id).
    { induction Rid as [v id Hv Hr|id id' _ IH (o & v & Ho & Hg & Hr)]; [eapply reach_root; eauto|].
      eapply reach_edge; [exact IH|]. exists o, v. split; auto. eapply gc_heap; eauto. }
    destruct (Live _ Rid') as [X Y]. congruence.
Qed.

Definition quiet (floor : option nat) (u : thread) : Prop :=
  forall s, visits M no_poll floor u s -> ~ has_cycle M s.

Definition cpost (x y : bool * thread) : Prop := fst x = fst y /\ RI [] true (snd x) (snd y).

Lemma cycle_sim floor t u : RI [] true t u -> going floor u -> quiet floor u ->
  orel cpost (cycle M callT poll t) (cycle M callU no_poll u).
Proof.
  intros RIu Go Q. unfold cycle. replace (t_pc u) with (t_pc t) by apply RIu.
  destruct (Z.ltb_spec (t_pc t) 0) as [Lt|Ge]; [cbn; split; auto|].
  destruct (decode (m_code M) (t_pc t)) as [[i next]| | |] eqn:D; cbn [obind orel]; auto.
  assert (At : at_instr M u i next).
  { split; replace (t_pc u) with (t_pc t) by apply RIu; auto. }
  assert (ES : orel (RI [] true) (exec M callT i (with_pc t next)) (exec M callU i (with_pc u next))).
  { apply exec_sim; [apply pc_sim; auto|]. intros c k fn -> Fn f a t0 t1 s Ps En V.
    apply Q. eapply vis_call; eauto. }
  assert (HE : forall u1, exec M callU i (with_pc u next) = Ok u1 -> ~ has_cycle M u1).
  { intros u1 E. apply Q. apply vis_here; auto. split; [discriminate|]. exists n.
    unfold execute_cycle, cycle. destruct At as [_ D']. rewrite D'.
    replace (t_pc u) with (t_pc t) by apply RIu. destruct (Z.ltb_spec (t_pc t) 0); [lia|].
    cbn [obind]. rewrite E. reflexivity. }
  destruct (exec M callT i (with_pc t next)) as [t1| | |], (exec M callU i (with_pc u next)) as [u1| | |];
    try (destruct ES; fail); cbn [obind orel]; auto.
  cbn [orel] in ES. cbn [no_poll]. destruct (poll _ _); [|cbn; split; auto].
  destruct (gc_sim t1 u1) as (t2 & G & R2); auto. rewrite G. cbn. split; auto.
Qed.
End Step.

Hypothesis Resp : foreign_respects M.
Hypothesis Silent : silent_finalizers M.

Lemma enter_sim t u f a : RI a true t u -> orel (RI [] true) (enter_call M t f a) (enter_call M u f a).
Proof.
  intros RIu. pose proof RIu as [R P]. unfold enter_call, oassert.
  destruct (0 <=? f)%Z; cbn [orel]; auto.
  destruct P as (OK & (g & Eg & Lg) & PS).
  assert (alloc_globals M t = t) as -> by (unfold alloc_globals; rewrite Eg; reflexivity).
  assert (alloc_globals M u = u) as ->.
  { unfold alloc_globals. replace (t_globs u) with (t_globs t) by apply R. rewrite Eg; reflexivity. }
  replace (t_stk u) with (t_stk t) by apply R.
  destruct (room M _); cbn [orel]; auto. destruct (nth_error (m_fpcs M) _) as [pc|]; cbn [orel]; auto.
  apply push_indir_sim. apply pc_sim.
  assert (X : RI a true (with_stk t (rev a ++ t_stk t)) (with_stk u (rev a ++ t_stk t))).
  { apply restack; auto. intros v. rewrite in_app_iff, <- in_rev. intros X. right. unfold holds.
    rewrite !in_app_iff. tauto. }
  split; [apply X|]. eapply pinv_less; [apply X|intros ? []|auto].
Qed.

Lemma leave_sim t u t1 u1 : same_but_garbage t u -> RI [] true t1 u1 ->
  orel post (leave_call t t1) (leave_call u u1).
Proof.
  intros R RI1. pose proof RI1 as [R1 P1]. unfold leave_call.
  replace (t_stk u1) with (t_stk t1) by apply R1. replace (t_stk u) with (t_stk t) by apply R.
  destruct (cut (t_stk t1) _) as [s| | |] eqn:C; cbn [obind orel]; auto.
  replace (t_frames u1) with (t_frames t1) by apply R1. replace (t_frames u) with (t_frames t) by apply R.
  destruct (_ <=? _); cbn [orel]; auto. cbn [fst snd].
  replace (t_pc u) with (t_pc t) by apply R. replace (t_fp u) with (t_fp t) by apply R.
  replace (t_ret u) with (t_ret t) by apply R. split; [apply R1|]. cbn [fst snd].
  destruct (sim_shape _ _ R1) as (h & k & m & -> & L).
  eapply RI_hold; [exact RI1|eapply sim_make with (t := with_ret (with_ctl t1 _ _ _ _) _); exact L|reflexivity..|apply P1|].
  intros x. unfold holds, globs_of. cbn. repeat (rewrite in_app_iff; cbn).
  intros [<-|[X|[X|[]]]]; [tauto| |tauto]. right. left. eapply cut_in; eauto.
Qed.

Lemma loop_sim : forall n floor t u, RI [] true t u -> quiet floor u ->
  orel (RI [] true) (loop M poll n floor t) (loop M no_poll n floor u).
Proof.
  induction n as [|n IH]; intros floor t u RIu Q.
  - simpl. replace (t_frames u) with (t_frames t) by apply RIu.
    destruct (match floor with Some fc => _ | None => _ end); cbn [orel]; auto.
  - rewrite !loop_S. replace (t_frames u) with (t_frames t) by apply RIu.
    destruct (match floor with Some fc => _ | None => _ end) eqn:Go; cbn [orel]; auto.
    assert (going floor u) as Gg.
    { unfold going. destruct floor; auto. replace (t_frames u) with (t_frames t) by apply RIu. apply Nat.ltb_lt; auto. }
    assert (CS : orel cpost (cycle M (call_function M poll n) poll t) (cycle M (call_function M no_poll n) no_poll u)).
    { eapply cycle_sim; eauto. intros t0 u0 f a R0 Q0. unfold call_function.
      pose proof (enter_sim _ _ f a R0) as ES. 
      destruct (enter_call M t0 f a) as [t1| | |], (enter_call M u0 f a) as [u1| | |];
        try (destruct ES; fail); cbn [obind orel]; auto. cbn [orel] in ES.
      replace (t_frames u0) with (t_frames t0) by apply R0.
      eapply orel_bind; [apply IH; [exact ES|]|].
      - intros s V. apply (Q0 u1 s eq_refl). replace (t_frames u0) with (t_frames t0) by apply R0. exact V.
      - intros t2 u2 R2. apply leave_sim; auto. apply R0. }
    destruct (cycle M (call_function M poll n) poll t) as [[b t1]| | |],
      (cycle M (call_function M no_poll n) no_poll u) as [[b' u1]| | |] eqn:Cu;
      try (destruct CS; fail); cbn [obind orel]; auto. destruct CS as [Eb R1]. cbn [fst snd] in *. subst b'.
    destruct b; auto. apply IH; auto. intros s V. apply Q. eapply vis_next; eauto.
    split; [discriminate|]. exists n. exact Cu.
Qed.

Lemma call_sim n t u f a : RI a true t u ->
  (forall u1, enter_call M u f a = Ok u1 -> quiet (Some (length (t_frames u))) u1) ->
  orel post (call_function M poll n t f a) (call_function M no_poll n u f a).
Proof.
  intros R0 Q0. unfold call_function. pose proof (enter_sim _ _ f a R0) as ES.
  destruct (enter_call M t f a) as [t1| | |], (enter_call M u f a) as [u1| | |];
    try (destruct ES; fail); cbn [obind orel]; auto. cbn [orel] in ES.
  replace (t_frames u) with (t_frames t) in * by apply R0.
  eapply orel_bind; [apply loop_sim; [exact ES|apply Q0; auto]|].
  intros t2 u2 R2. apply leave_sim; auto. apply R0.
Qed.
End Sim.
