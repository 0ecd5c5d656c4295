From Verif Require Import Base Values Code Heap GCSpec GCProofs VM VMBasics VMSpec.
Local Open Scope nat_scope.

Ltac obinv E :=
  match type of E with
  | obind ?m _ = Ok _ =>
      let r := fresh "r" in let Em := fresh "Em" in
      destruct m as [r| | |] eqn:Em; [cbn [obind] in E|discriminate E..]
  end.

Section Inv.
Context {H : Type} (M : machine H) (poll : nat -> nat -> bool).
Variable P : heap -> nat -> nat -> Prop.
Hypothesis P_alloc : forall h nx n b, P h nx n -> P (mkObj nx false b :: h) (S nx) (S n).
Hypothesis P_set : forall h nx n id fs k v, P h nx n ->
  P (hset h id (fun o => mkObj (o_id o) (o_mark o) (BStruct (update fs k v)))) nx n.
Hypothesis P_gc : forall h nx n w rs h' w' n' mx, P h nx n ->
  collect (m_natives M) h w n rs = Ok (h', w', n', mx) -> P h' nx n'.

Definition PT (t : thread H) : Prop := P (t_heap t) (t_next t) (t_nobj t).
Definition same_heap (t t' : thread H) : Prop :=
  t_heap t' = t_heap t /\ t_next t' = t_next t /\ t_nobj t' = t_nobj t.

Lemma same_PT t t' : same_heap t t' -> PT t -> PT t'.
Proof. unfold same_heap, PT. intros (-> & -> & ->). auto. Qed.

Lemma push_same t v t' : push M t v = Ok t' -> same_heap t t'.
Proof. unfold push. destruct (room _ _); intros E; inversion E; subst. repeat split. Qed.
Lemma pop_same t v t' : pop t = Ok (v, t') -> same_heap t t'.
Proof. unfold pop. destruct (t_stk t); intros E; inversion E; subst. repeat split. Qed.
Lemma push_indir_same t n t' : push_indir M t n = Ok t' -> same_heap t t'.
Proof. unfold push_indir. destruct (_ <? _); intros E; inversion E; subst. repeat split. Qed.
Lemma pop_indir_same t t' : pop_indir t = Ok t' -> same_heap t t'.
Proof.
  unfold pop_indir. destruct (t_frames t); [discriminate|]. destruct (_ <=? _); [|discriminate].
  destruct (cut _ _); try discriminate. destruct (cut _ _); try discriminate.
  intros E; inversion E; subst. repeat split.
Qed.
Lemma glob_put_same t i v t' : glob_put t i v = Ok t' -> same_heap t t'.
Proof.
  unfold glob_put. destruct (t_globs t); [|discriminate]. destruct (_ <? _); [|discriminate].
  intros E; inversion E; subst. repeat split.
Qed.
Lemma set_global_same t i v t' : set_global M t i v = Ok t' -> same_heap t t'.
Proof.
  unfold set_global, oassert. destruct (_ && _)%bool; [|discriminate].
  destruct (t_globs t) eqn:G; [|discriminate]. apply glob_put_same.
Qed.
Lemma alloc_globals_same t : same_heap t (alloc_globals M t).
Proof. unfold alloc_globals. destruct (t_globs t); repeat split. Qed.

Variable callf : thread H -> Z -> list value -> outcome (value * thread H).
Hypothesis P_call : forall t f a v t', PT t -> callf t f a = Ok (v, t') -> PT t'.

Lemma fprog_PT : forall p t v t', PT t -> run_fprog M callf p t = Ok (v, t') -> PT t'.
Proof.
  induction p; intros t v' t' Pt E; simpl in E; try discriminate.
  - inversion E; subst; auto.
  - eauto.
  - eapply IHp; [|exact E]. exact Pt.
  - destruct (ref_of v); [|discriminate]. destruct (hget _ _); [|discriminate]. eauto.
  - eapply H0; [|exact E]. unfold PT in *; simpl. auto.
  - destruct (0 <=? t_pc t)%Z; [|discriminate]. simpl in E.
    eapply H0; [|exact E]. unfold PT in *; simpl. auto.
  - destruct (get_global M t i); try discriminate. eauto.
  - destruct (set_global M t i v) eqn:S; try discriminate.
    eapply IHp; [|exact E]. eapply same_PT; [eapply set_global_same; eauto|auto].
  - destruct (callf t f args) as [[w t1]| | |] eqn:C; try discriminate. eauto.
Qed.

Lemma exec_PT i t t' : PT t -> exec M callf i t = Ok t' -> PT t'.
Proof.
  intros Pt E.
  destruct i; cbn [exec] in E;
    try (eapply same_PT; [eapply push_same; eassumption|assumption]).
  - destruct (room _ _); inversion E; subst. exact Pt.
  - destruct (_ <? _)%Z; [discriminate|]. destruct (nth_error _ _); [|discriminate].
    eapply same_PT; [eapply push_same; eassumption|assumption].
  - destruct (_ <? _)%Z; [discriminate|]. destruct (nth_error _ _); [|discriminate].
    eapply same_PT; [eapply push_same; eassumption|assumption].
  - unfold oassert in E. destruct (_ <? _)%Z; [|discriminate]. destruct (_ <=? _); [|discriminate].
    unfold alloc in E.
    eapply same_PT; [eapply push_same; eassumption|]. unfold PT in *; cbn. auto.
  - destruct (t_stk t) as [|[] s]; try discriminate.
    destruct (hget (t_heap t) id) as [[? ? []]|]; try discriminate.
    destruct (nth_error _ _); inversion E; subst. exact Pt.
  - destruct (t_stk t) as [|[] [|v s]]; try discriminate.
    destruct (hget (t_heap t) id) as [[? ? []]|]; try discriminate.
    destruct (_ <? _); inversion E; subst. unfold PT in *; cbn. auto.
  - destruct (t_stk t) as [|b [|a s]]; try discriminate. obinv E. inversion E; subst; exact Pt.
  - destruct (t_stk t) as [|a s]; try discriminate. obinv E. inversion E; subst; exact Pt.
  - destruct (t_stk t) as [|a s]; try discriminate. obinv E. inversion E; subst; exact Pt.
  - destruct (t_stk t) as [|b [|a s]]; try discriminate. obinv E. inversion E; subst; exact Pt.
  - destruct (t_stk t) as [|a s]; try discriminate. obinv E. inversion E; subst; exact Pt.
  - obinv E. destruct r as [v t1]. eapply same_PT; [eapply glob_put_same; eassumption|].
    eapply same_PT; [eapply pop_same; eassumption|auto].
  - obinv E. eapply same_PT; [eapply push_same; eassumption|assumption].
  - inversion E; subst; exact Pt.
  - obinv E. destruct r as [v t1]. obinv E. pose proof (same_PT _ _ (pop_same _ _ _ Em) Pt) as Pt1.
    inversion E; subst. destruct r; exact Pt1.
  - obinv E. destruct (nth_error _ _); inversion E; subst.
    exact (same_PT _ _ (push_indir_same _ _ _ Em) Pt).
  - eapply same_PT; [eapply pop_indir_same; eassumption|exact Pt].
  - obinv E. destruct r as [v t1]. pose proof (same_PT _ _ (pop_same _ _ _ Em) Pt) as Pt1.
    eapply same_PT; [eapply pop_indir_same; eassumption|exact Pt1].
  - destruct (_ <=? _); [|discriminate]. destruct (nth_error _ _); [|discriminate].
    obinv E. destruct r as [v t1]. obinv E. inversion E; subst.
    pose proof (fprog_PT _ _ _ _ Pt Em) as P1. exact P1.
  - obinv E. eapply same_PT; [eapply push_same; eassumption|assumption].
  - obinv E. eapply same_PT; [eapply push_same; eassumption|assumption].
  - obinv E. destruct r as [v t1]. obinv E. pose proof (same_PT _ _ (pop_same _ _ _ Em) Pt) as Pt1.
    inversion E; subst. exact Pt1.
  - inversion E; subst; exact Pt.
Qed.

Lemma gc_PT t t' : PT t -> gc M t = Ok t' -> PT t'.
Proof.
  unfold gc. intros Pt E. destruct (roots M t) as [rs| | |]; try discriminate.
  destruct (collect _ _ _ _ _) as [[[[h w] n] mx]| | |] eqn:C; try discriminate.
  inversion E; subst. unfold PT in *; cbn. eapply P_gc; eauto.
Qed.

Lemma cycle_PT t b t' : PT t -> cycle M callf poll t = Ok (b, t') -> PT t'.
Proof.
  unfold cycle. intros Pt E. destruct (_ <? _)%Z. { inversion E; subst; auto. }
  obinv E. destruct r as [i nx]. obinv E. obinv E. inversion E; subst.
  assert (PT r) as P1. { eapply exec_PT; [|exact Em0]. exact Pt. }
  destruct (poll _ _); [eapply gc_PT; eauto|]. inversion Em1; subst; auto.
Qed.
End Inv.

Section Inv2.
Context {H : Type} (M : machine H) (poll : nat -> nat -> bool).
Variable P : heap -> nat -> nat -> Prop.
Hypothesis P_alloc : forall h nx n b, P h nx n -> P (mkObj nx false b :: h) (S nx) (S n).
Hypothesis P_set : forall h nx n id fs k v, P h nx n ->
  P (hset h id (fun o => mkObj (o_id o) (o_mark o) (BStruct (update fs k v)))) nx n.
Hypothesis P_gc : forall h nx n w rs h' w' n' mx, P h nx n ->
  collect (m_natives M) h w n rs = Ok (h', w', n', mx) -> P h' nx n'.

Lemma enter_PT t f a t' : PT P t -> enter_call M t f a = Ok t' -> PT P t'.
Proof.
  unfold enter_call, oassert. intros Pt E. destruct (0 <=? f)%Z; [|discriminate].
  destruct (room _ _); [|discriminate]. destruct (nth_error _ _); [|discriminate].
  eapply same_PT; [eapply push_indir_same; exact E|].
  eapply (same_PT P) with (t := alloc_globals M t); [repeat split|].
  eapply same_PT; [apply alloc_globals_same|auto].
Qed.

Lemma leave_PT (t0 t : thread H) v t' : PT P t -> leave_call t0 t = Ok (v, t') -> PT P t'.
Proof.
  unfold leave_call. intros Pt E. obinv E. destruct (_ <=? _); inversion E; subst. exact Pt.
Qed.

Lemma loop_PT : forall fuel floor t t', PT P t -> loop M poll fuel floor t = Ok t' -> PT P t'.
Proof.
  induction fuel as [|f IH]; intros floor t t' Pt E.
  - simpl in E. destruct (match floor with Some fc => _ | None => _ end); inversion E; subst; auto.
  - rewrite loop_S in E. destruct (match floor with Some fc => _ | None => _ end).
    2:{ inversion E; subst; auto. }
    obinv E. destruct r as [b t1].
    assert (PT P t1).
    { eapply cycle_PT; try eassumption. intros t0 fn a v t2 P0 C. unfold call_function in C.
      obinv C. obinv C. eapply leave_PT; [|exact C]. eapply IH; [|exact Em1].
      eapply enter_PT; [|exact Em0]. exact P0. }
    destruct b; [eauto|]. inversion E; subst; auto.
Qed.

Lemma call_PT fuel t f a v t' : PT P t -> call_function M poll fuel t f a = Ok (v, t') -> PT P t'.
Proof.
  unfold call_function. intros P0 C. obinv C. obinv C. eapply leave_PT; [|exact C].
  eapply loop_PT; [|exact Em0]. eapply enter_PT; [|exact Em]. exact P0.
Qed.

Lemma execute_cycle_PT fuel t b t' : PT P t -> execute_cycle M poll fuel t = Ok (b, t') -> PT P t'.
Proof. intros P0 E. eapply cycle_PT; try eassumption. intros; eapply call_PT; eauto. Qed.

Lemma reached_PT : P [] 0 0 -> forall t, reached M poll t -> PT P t.
Proof.
  intros P0 t R. induction R.
  - exact P0.
  - eapply (same_PT P) with (t := alloc_globals M t); [repeat split|].
    eapply same_PT; [apply alloc_globals_same|auto].
  - destruct H0 as (_ & f & E). eapply execute_cycle_PT; eauto.
  - destruct H0 as (_ & f & E). eapply fprog_PT; try eassumption. intros; eapply call_PT; eauto.
Qed.
End Inv2.

(** The bookkeeping invariant. *)
Definition ok3 (h : heap) (nx n : nat) : Prop :=
  heap_ok h /\ n = length h /\ Forall (fun o => o_id o < nx) h.

Lemma keeps_in {A} (P : A -> Prop) l l' : keeps P l l' -> forall x, In x l' <-> In x l /\ P x.
Proof.
  induction 1 as [|a l l' Pa K IH|a l l' Pa K IH]; intros x; simpl.
  - tauto.
  - rewrite IH. split; intuition (subst; auto).
  - rewrite IH. split; intuition (subst; auto). contradiction.
Qed.

Lemma keeps_forall {A} (P Q : A -> Prop) l l' : keeps P l l' -> Forall Q l -> Forall Q l'.
Proof. induction 1; intros F; inversion F; subst; auto. Qed.

Lemma keeps_nodup {A B} (f : A -> B) (P : A -> Prop) l l' :
  keeps P l l' -> NoDup (map f l) -> NoDup (map f l').
Proof.
  induction 1 as [|a l l' Pa K IH|a l l' Pa K IH]; simpl; intros D; auto; inversion D; subst; auto.
  constructor; auto. intros I. apply H1. apply in_map_iff in I. destruct I as (x & E & I).
  rewrite <- E. apply in_map. apply (keeps_in _ _ _ K) in I. tauto.
Qed.

Lemma hset_ids h id b : map o_id (hset h id (fun o => mkObj (o_id o) (o_mark o) b)) = map o_id h.
Proof.
  induction h as [|o h IH]; simpl; auto. destruct (Nat.eqb _ _); simpl; auto. congruence.
Qed.

Lemma hset_length h id f : length (hset h id f) = length h.
Proof. induction h as [|o h IH]; simpl; auto. destruct (Nat.eqb _ _); simpl; auto. Qed.

Lemma hset_forall (Q : obj -> Prop) h id f : (forall o, Q o -> Q (f o)) ->
  Forall Q h -> Forall Q (hset h id f).
Proof.
  intros HQ. induction 1; simpl; auto. destruct (Nat.eqb _ _); constructor; auto.
Qed.

Lemma ok3_alloc h nx n b : ok3 h nx n -> ok3 (mkObj nx false b :: h) (S nx) (S n).
Proof.
  intros ((D & U) & -> & F). split; [split|split].
  - simpl. constructor; auto. intros I. apply in_map_iff in I. destruct I as (o & E & I).
    rewrite Forall_forall in F. specialize (F _ I). lia.
  - constructor; auto.
  - reflexivity.
  - constructor; simpl; [lia|]. eapply Forall_impl; [|exact F]. simpl. intros; lia.
Qed.

Lemma ok3_set h nx n id fs k v : ok3 h nx n ->
  ok3 (hset h id (fun o => mkObj (o_id o) (o_mark o) (BStruct (update fs k v)))) nx n.
Proof.
  intros ((D & U) & -> & F). split; [split|split].
  - rewrite hset_ids. auto.
  - apply hset_forall; auto.
  - rewrite hset_length. reflexivity.
  - apply hset_forall; auto.
Qed.

Lemma ok3_gc {H} (N : natives H) h nx n w rs h' w' n' mx : ok3 h nx n ->
  collect N h w n rs = Ok (h', w', n', mx) -> ok3 h' nx n'.
Proof.
  intros (OK & -> & F) C. destruct (collect_exact _ _ _ _ _ _ _ _ _ OK C)
    as (dead & K & K2 & _ & -> & _). destruct OK as [D U].
  split; [split|split].
  - eapply keeps_nodup; eauto.
  - eapply keeps_forall; eauto.
  - rewrite (keeps_length _ _ _ _ K K2). lia.
  - eapply keeps_forall; eauto.
Qed.

Lemma reached_ok {H} (M : machine H) poll t : reached M poll t -> thread_ok t.
Proof.
  intros R. apply (reached_PT M poll ok3); auto using ok3_alloc, ok3_set.
  - intros; eapply ok3_gc; eauto.
  - split; [split; constructor|split; [reflexivity|constructor]].
Qed.
