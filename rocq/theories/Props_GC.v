(** * Properties of garbage collection seen from the program *)
From Verif Require Import Base Values Code Heap GCSpec GCProofs VM VMBasics VMSpec VMInv VMFrame VMProofs VMProps
  GCTransSpec GCTrans GCSound Props_VM.
Local Open Scope nat_scope.

(** ** C24: whatever collection policy, a run that ends well ends as without
    collection; for arbitrary code and foreign functions. *)
Theorem collection_sound : forall {H} (M : machine H) poll t u, silent_finalizers M ->
  thread_ok t -> same_but_garbage t u ->
  (forall t', runs M poll t (Ok t') -> exists u', runs M no_poll u (Ok u') /\ same_but_garbage t' u') /\
  (runs M poll t Abort -> runs M no_poll u Abort).
Proof.
  intros H M poll t u Sil OK R. split.
  - intros t' (_ & f & E). pose proof (loop_snd M poll Sil f None t u OK R) as L. unfold run in E. rewrite E in L.
    destruct L as (u' & Eu & R'). exists u'. split; auto. split; [discriminate|exists f; exact Eu].
  - intros (_ & f & E). pose proof (loop_snd M poll Sil f None t u OK R) as L. unfold run in E. rewrite E in L.
    split; [discriminate|exists f; exact L].
Qed.
Print Assumptions collection_sound.

(** With foreign functions that hold on to nothing the collector cannot see, and
    no cyclic structure, the two runs correspond in every outcome, and no value
    the program holds ever dangles. *)
Theorem collection_transparent : forall {H} (M : machine H) poll t u,
  silent_finalizers M -> foreign_respects M ->
  no_dangling M t -> same_but_garbage t u ->
  (forall s, visits M no_poll None u s -> ~ has_cycle M s) ->
  (forall t', runs M poll t (Ok t') ->
     exists u', runs M no_poll u (Ok u') /\ same_but_garbage t' u' /\ no_dangling M t') /\
  (forall u', runs M no_poll u (Ok u') ->
     exists t', runs M poll t (Ok t') /\ same_but_garbage t' u' /\ no_dangling M t') /\
  (runs M poll t Abort <-> runs M no_poll u Abort) /\
  (runs M poll t UB <-> runs M no_poll u UB).
Proof.
  intros H M poll t u Sil Resp ND R Q.
  assert (L : forall f, orel (RI M [] true) (run M poll f t) (run M no_poll f u)).
  { intros f. apply loop_sim; auto. split; auto. apply (pinv_no_dangling M poll); auto. }
  split; [|split; [|split; split]].
  - intros t' (_ & f & E). specialize (L f). rewrite E in L. destruct (run M no_poll f u) as [u'| | |] eqn:Eu; try destruct L.
    exists u'. split; [split; [discriminate|eauto]|]. split; auto. apply (pinv_no_dangling M poll); auto.
  - intros u' (_ & f & E). specialize (L f). rewrite E in L. destruct (run M poll f t) as [t'| | |] eqn:Et; try destruct L.
    exists t'. split; [split; [discriminate|eauto]|]. split; auto. apply (pinv_no_dangling M poll); auto.
  - intros (_ & f & E). specialize (L f). rewrite E in L. split; [discriminate|exists f]. destruct (run M no_poll f u); cbn in L; try contradiction; reflexivity.
  - intros (_ & f & E). specialize (L f). rewrite E in L. split; [discriminate|exists f]. destruct (run M poll f t); cbn in L; try contradiction; reflexivity.
  - intros (_ & f & E). specialize (L f). rewrite E in L. split; [discriminate|exists f]. destruct (run M no_poll f u); cbn in L; try contradiction; reflexivity.
  - intros (_ & f & E). specialize (L f). rewrite E in L. split; [discriminate|exists f]. destruct (run M poll f t); cbn in L; try contradiction; reflexivity.
Qed.
Print Assumptions collection_transparent.

(** The same for a call from the host. *)
Theorem collection_transparent_call : forall {H} (M : machine H) poll t u f a,
  silent_finalizers M -> foreign_respects M ->
  no_dangling M t -> same_but_garbage t u -> (forall v, In v a -> ref_of v = None \/ In v (root_values M t)) ->
  (forall u1 s, enter_call M u f a = Ok u1 -> visits M no_poll (Some (length (t_frames u))) u1 s -> ~ has_cycle M s) ->
  (forall v t', calls M poll t f a (Ok (v, t')) -> exists u', calls M no_poll u f a (Ok (v, u')) /\ same_but_garbage t' u') /\
  (forall v u', calls M no_poll u f a (Ok (v, u')) -> exists t', calls M poll t f a (Ok (v, t')) /\ same_but_garbage t' u') /\
  (calls M poll t f a Abort <-> calls M no_poll u f a Abort) /\
  (calls M poll t f a UB <-> calls M no_poll u f a UB).
Proof.
  intros H M poll t u f a Sil Resp ND R Ka Q.
  assert (L : forall n, orel (post M) (call_function M poll n t f a) (call_function M no_poll n u f a)).
  { intros n. apply call_sim; auto.
    - split; auto. pose proof ND as (OK & G & _). apply (pinv_no_dangling M poll) in ND. eapply (pinv_less M); [exact ND| |auto].
      intros v Hv. destruct (Ka v Hv) as [X|X]; auto. right. rewrite (globs_root M t G) in X. unfold holds. cbn in X |- *.
      rewrite in_app_iff in X. rewrite !in_app_iff. cbn. tauto.
    - intros u1 E s V. eapply Q; eauto. }
  split; [|split; [|split; split]].
  - intros v t' (_ & n & E). specialize (L n). rewrite E in L.
    destruct (call_function M no_poll n u f a) as [[v' u']| | |] eqn:Eu; try contradiction. destruct L as [Ev [Rg _]]. cbn [fst snd] in *. subst v'.
    exists u'. split; [split; [discriminate|eauto]|]. exact Rg.
  - intros v u' (_ & n & E). specialize (L n). rewrite E in L.
    destruct (call_function M poll n t f a) as [[v' t']| | |] eqn:Et; try contradiction. destruct L as [Ev [Rg _]]. cbn [fst snd] in *. subst v'.
    exists t'. split; [split; [discriminate|eauto]|]. exact Rg.
  - intros (_ & n & E). specialize (L n). rewrite E in L. split; [discriminate|exists n]. destruct (call_function M no_poll n u f a); cbn in L; try contradiction; reflexivity.
  - intros (_ & n & E). specialize (L n). rewrite E in L. split; [discriminate|exists n]. destruct (call_function M poll n t f a); cbn in L; try contradiction; reflexivity.
  - intros (_ & n & E). specialize (L n). rewrite E in L. split; [discriminate|exists n]. destruct (call_function M no_poll n u f a); cbn in L; try contradiction; reflexivity.
  - intros (_ & n & E). specialize (L n). rewrite E in L. split; [discriminate|exists n]. destruct (call_function M poll n t f a); cbn in L; try contradiction; reflexivity.
Qed.
Print Assumptions collection_transparent_call.

(** A thread just started holds nothing that dangles. *)
Theorem started_no_dangling : forall {H} (M : machine H) w, no_dangling M (start_thread M (init_thread w)).
Proof.
  intros H M w. split; [|split].
  - split; [split; constructor|]. split; [reflexivity|constructor].
  - eexists. split; [reflexivity|]. apply repeat_length.
  - intros id R. exfalso. remember (root_values M (start_thread M (init_thread w))) as rs.
    induction R as [v id Hv Hr|id id' _ IH (o & v & Ho & _)]; auto. subst rs. unfold root_values in Hv. cbn in Hv.
    destruct Hv as [<-|Hv]; [discriminate|]. apply in_firstn in Hv. apply repeat_spec in Hv. subst. discriminate.
Qed.
Print Assumptions started_no_dangling.

(** A program that allocates (once per round of [n] rounds it drops the object
    it made before): after the first instruction the heap never holds a cycle. *)
Definition churn : list instr :=
  [IPush1; IPushStruct 1; ISet 0; IPush0; IPushStruct 1; ISet 0; IHalt].
Example transparent_case :
  let M := demo churn [] [] 1 in let t := start_thread M (init_thread tt) in
  silent_finalizers M /\ foreign_respects M /\ no_dangling M t /\ same_but_garbage t t /\
  (forall s, visits M no_poll None t s -> ~ has_cycle M s) /\
  exists t1 t2, runs M (fun _ _ => true) t (Ok t1) /\ runs M no_poll t (Ok t2) /\
    length (t_heap t1) = 1 /\ length (t_heap t2) = 2.
Proof.
  intros M t. split; [intros p w a; reflexivity|]. split; [intros fn w args []|].
  split; [apply started_no_dangling|].
  split; [unfold same_but_garbage; repeat split; auto|]. split.
  2:{ eexists _, _. split; [split; [discriminate|exists 9; vm_compute; reflexivity]|].
      split; [split; [discriminate|exists 9; vm_compute; reflexivity]|]. split; reflexivity. }
  (* struct fields are only ever ints *)
  set (flat := fun s : thread unit => Forall (fun o => match o_body o with BStruct fs => Forall (fun v => ref_of v = None) fs | _ => False end) (t_heap s)).
  assert (FC : forall s, flat s -> ~ has_cycle M s).
  { intros s F (id & _ & P). assert (exists b, edge (m_natives M) (t_host s) (t_heap s) id b) as (b & o & v & Ho & Hg & Hr).
    { inversion P; subst; eauto. }
    assert (In o (t_heap s)) as Io.
    { clear - Ho. induction (t_heap s) as [|x h IH]; simpl in Ho; [discriminate|].
      destruct (o_id x =? id); [inversion Ho; left; auto|right; auto]. }
    unfold flat in F. rewrite Forall_forall in F. specialize (F _ Io). destruct (o_body o); try contradiction.
    inversion Hg; subst. rewrite Forall_forall in F. rewrite (F v) in Hr; [discriminate|auto]. }
  set (stp := fun u : thread unit => match execute_cycle M no_poll 0 u with Ok (_, x) => x | _ => u end).
  assert (Fl : Forall flat (map (fun k => Nat.iter k stp t) (seq 0 8))).
  { unfold flat. vm_compute. repeat constructor. }
  assert (St : Forall (fun k => execute_cycle M no_poll 0 (Nat.iter k stp t) = Ok (true, Nat.iter (S k) stp t)) (seq 0 7)).
  { repeat (apply Forall_cons; [vm_compute; reflexivity|]). apply Forall_nil. }
  assert (En : cycles M no_poll (Nat.iter 7 stp t) (Ok (false, Nat.iter 7 stp t))).
  { split; [discriminate|exists 0; vm_compute; reflexivity]. }
  assert (G : forall fl u s', visits M no_poll fl u s' -> forall k, k <= 7 -> u = Nat.iter k stp t -> flat s').
  { assert (Nx : forall k t1, k <= 7 -> cycles M no_poll (Nat.iter k stp t) (Ok (true, t1)) ->
        k < 7 /\ t1 = Nat.iter (S k) stp t).
    { intros k t1 Lk C. assert (k = 7 \/ k < 7) as [->|L7] by lia.
      - pose proof (cycles_det M no_poll _ _ _ C En). discriminate.
      - split; auto. rewrite Forall_forall in St. assert (In k (seq 0 7)) as Ik by (apply in_seq; lia).
        pose proof (St _ Ik) as E. assert (C' : cycles M no_poll (Nat.iter k stp t) (Ok (true, Nat.iter (S k) stp t))).
        { split; [discriminate|exists 0; exact E]. }
        pose proof (cycles_det M no_poll _ _ _ C C') as X. injection X as X. exact X. }
    intros fl u s' V.
    induction V as [fl u t1 Go C|fl u t1 s' Go C V IH|fl u a b nx fn f ar t0 t1 s' Go At Fn]; intros k Lk ->.
    - destruct (Nx _ _ Lk C) as [L7 ->]. rewrite Forall_forall in Fl. apply Fl. apply in_map_iff.
      exists (S k). split; auto. apply in_seq. lia.
    - destruct (Nx _ _ Lk C) as [L7 ->]. apply (IH (S k)); auto.
    - exfalso. change (m_foreign M) with (@nil (list value -> fprog unit)) in Fn. destruct (Z.to_nat b); discriminate Fn. }
  intros s V. apply FC. exact (G None t s V 0 (Nat.le_0_l 7) eq_refl).
Qed.

(** ** Two calls back from one foreign function: the return value the first call
    put aside is not protected and dangles when it is put back. *)
Fixpoint new_strings (n : nat) (k : value -> fprog unit) : fprog unit :=
  match n with
  | O => k VNull
  | S O => FNewStr (text_of "x") k
  | S n' => FNewStr (text_of "x") (fun _ => new_strings n' k)
  end.
Definition two_calls_code : list instr :=
  [ICallF 0 0; ICallF 0 1; IHalt; IPush0; ICallF 0 2; IReturn].
Definition two_calls : machine unit :=
  demo two_calls_code [plen (fold_left gen_instr (firstn 3 two_calls_code) [])]
    [ (fun _ => new_strings 8 FRet);
      (fun _ => FCall 0 [] (fun _ => FCall 0 [] (fun _ => FRet VNull)));
      (fun _ => new_strings 2 (fun _ => FRet VNull)) ] 0.
Theorem two_callbacks_refuted :
  let t := start_thread two_calls (init_thread tt) in
  runs two_calls real_poll t UB /\ exists t', runs two_calls no_poll t (Ok t').
Proof.
  split; [split; [discriminate|exists 20; vm_compute; reflexivity]|].
  eexists. split; [discriminate|exists 20; vm_compute; reflexivity].
Qed.
Print Assumptions two_callbacks_refuted.

(** A structure that refers to itself kills the run at the next collection. *)
Definition self_code : list instr :=
  [IPushNull; IPushStruct 1; ISet 0; IGet 0; IGet 0; IStructSet 0; ICallF 0 0; IHalt].
Theorem cyclic_structure_refuted :
  let M := demo self_code [] [fun _ => new_strings 8 FRet] 1 in
  let t := start_thread M (init_thread tt) in
  runs M real_poll t UB /\ exists t', runs M no_poll t (Ok t').
Proof.
  split; [split; [discriminate|exists 20; vm_compute; reflexivity]|].
  eexists. split; [discriminate|exists 20; vm_compute; reflexivity].
Qed.
Print Assumptions cyclic_structure_refuted.

(** ** C22 in every history of a running program *)
Theorem objects_held_are_alive : forall {H} (M : machine H) poll w t',
  silent_finalizers M -> foreign_respects M ->
  (forall s, visits M no_poll None (start_thread M (init_thread w)) s -> ~ has_cycle M s) ->
  runs M poll (start_thread M (init_thread w)) (Ok t') -> no_dangling M t'.
Proof.
  intros H M poll w t' Sil Resp Q E.
  destruct (collection_transparent M poll _ (start_thread M (init_thread w)) Sil Resp (started_no_dangling M w)) as (F & _).
  - unfold same_but_garbage. repeat split; auto.
  - exact Q.
  - destruct (F _ E) as (_ & _ & _ & D). exact D.
Qed.
Print Assumptions objects_held_are_alive.
