(** * What a cycle and a call leave alone *)
From Verif Require Import Base Values Code Heap GCSpec VM VMBasics VMSpec VMInv.
Local Open Scope nat_scope.

Lemma gc_frame {H} (M : machine H) t t' : gc M t = Ok t' ->
  t_pc t' = t_pc t /\ t_fp t' = t_fp t /\ t_stk t' = t_stk t /\ t_frames t' = t_frames t /\
  t_ret t' = t_ret t /\ t_globs t' = t_globs t /\ t_next t' = t_next t.
Proof.
  unfold gc. destruct (roots M t); try discriminate.
  destruct (collect _ _ _ _ _) as [[[[h w] n] mx]| | |]; try discriminate.
  intros E; inversion E; subst. cbn. repeat split.
Qed.

(** The lowest [n] elements of a list whose head is the newest. *)
Definition bottom {A} (n : nat) (l : list A) : list A := skipn (length l - n) l.

Lemma bottom_cons {A} n (x : A) l : n <= length l -> bottom n (x :: l) = bottom n l.
Proof.
  intros L. unfold bottom. simpl length. replace (S (length l) - n) with (S (length l - n)) by lia.
  reflexivity.
Qed.

Lemma bottom_all {A} (l : list A) : bottom (length l) l = l.
Proof. unfold bottom. rewrite Nat.sub_diag. reflexivity. Qed.

Lemma bottom_length {A} n (l : list A) : n <= length l -> length (bottom n l) = n.
Proof. intros. unfold bottom. rewrite skipn_length. lia. Qed.

Lemma skipn_plus {A} x y (l : list A) : skipn x (skipn y l) = skipn (x + y) l.
Proof.
  revert l. induction y as [|y IH]; intros l; simpl.
  - rewrite Nat.add_0_r. reflexivity.
  - rewrite <- plus_n_Sm. destruct l as [|z l]; simpl; [destruct x; reflexivity|auto].
Qed.

Lemma bottom_skipn {A} n k (l : list A) : n + k <= length l -> bottom n (skipn k l) = bottom n l.
Proof.
  intros L. unfold bottom. rewrite skipn_length, skipn_plus. f_equal. lia.
Qed.

Lemma bottom_bottom {A} n k (l : list A) : n <= k -> k <= length l -> bottom n (bottom k l) = bottom n l.
Proof. intros. unfold bottom at 2. apply bottom_skipn. lia. Qed.

Section Frame.
Context {H : Type} (M : machine H) (poll : nat -> nat -> bool).

(** Frames at depth [n] and below are untouched. *)
Definition fkeep (n : nat) (t t' : thread H) : Prop :=
  n <= length (t_frames t') /\ bottom n (t_frames t') = bottom n (t_frames t).

Definition ctl_same (t t' : thread H) : Prop :=
  t_pc t' = t_pc t /\ t_fp t' = t_fp t /\ length (t_stk t') = length (t_stk t) /\
  t_frames t' = t_frames t /\ t_ret t' = t_ret t.

Lemma push_ctl t v t' : push M t v = Ok t' ->
  t_pc t' = t_pc t /\ t_frames t' = t_frames t /\ t_fp t' = t_fp t /\ t_stk t' = v :: t_stk t.
Proof. unfold push. destruct (room _ _); intros E; inversion E; subst. repeat split. Qed.
Lemma pop_ctl (t : thread H) v t' : pop t = Ok (v, t') ->
  t_pc t' = t_pc t /\ t_frames t' = t_frames t /\ t_fp t' = t_fp t /\ t_stk t = v :: t_stk t'.
Proof. unfold pop. destruct (t_stk t); intros E; inversion E; subst. repeat split. Qed.

Variable callf : thread H -> Z -> list value -> outcome (value * thread H).
Hypothesis call_ctl : forall t f a v t', callf t f a = Ok (v, t') -> ctl_same t t'.

Lemma ctl_trans t t1 t2 : ctl_same t t1 -> ctl_same t1 t2 -> ctl_same t t2.
Proof. unfold ctl_same. intuition congruence. Qed.

Lemma fprog_ctl : forall p t v t', run_fprog M callf p t = Ok (v, t') -> ctl_same t t'.
Proof.
  induction p; intros t v' t' E; simpl in E; try discriminate.
  - inversion E; subst; repeat split.
  - eauto.
  - apply IHp in E. exact E.
  - destruct (ref_of v); [|discriminate]. destruct (hget _ _); [|discriminate]. eauto.
  - apply H0 in E. exact E.
  - destruct (0 <=? t_pc t)%Z; [|discriminate]. simpl in E. apply H0 in E. exact E.
  - destruct (get_global M t i); try discriminate. eauto.
  - destruct (set_global M t i v) eqn:S; try discriminate.
    apply IHp in E. eapply ctl_trans; [|exact E].
    unfold set_global, oassert, glob_put in S. destruct (_ && _)%bool; [|discriminate].
    destruct (t_globs t); [|discriminate]. destruct (_ <? _); inversion S; subst. repeat split.
  - destruct (callf t f args) as [[w t1]| | |] eqn:C; try discriminate.
    eapply ctl_trans; [eapply call_ctl; eauto|]. eauto.
Qed.

(** Instructions that continue with the next one. *)
Definition straight (i : instr) : bool :=
  match i with
  | IGoto _ | IGotoz _ | ICall _ _ | IReturn | IReturnValue | IHalt => false
  | _ => true
  end.

Lemma exec_straight i t t' : straight i = true -> exec M callf i t = Ok t' ->
  t_pc t' = t_pc t /\ t_fp t' = t_fp t /\ t_frames t' = t_frames t.
Proof.
  intros S E.
  destruct i; try discriminate S; cbn [exec] in E;
    try (apply push_ctl in E; destruct E as (? & ? & ? & ?); auto).
  - destruct (room _ _); inversion E; subst; auto.
  - destruct (_ <? _)%Z; [discriminate|]. destruct (nth_error _ _); [|discriminate].
    apply push_ctl in E; destruct E as (? & ? & ? & ?); auto.
  - destruct (_ <? _)%Z; [discriminate|]. destruct (nth_error _ _); [|discriminate].
    apply push_ctl in E; destruct E as (? & ? & ? & ?); auto.
  - unfold oassert in E. destruct (_ <? _)%Z; [|discriminate]. destruct (_ <=? _); [|discriminate].
    unfold alloc in E. apply push_ctl in E. destruct E as (? & ? & ? & ?); auto.
  - destruct (t_stk t) as [|[] s]; try discriminate.
    destruct (hget (t_heap t) id) as [[? ? []]|]; try discriminate.
    destruct (nth_error _ _); inversion E; subst; auto.
  - destruct (t_stk t) as [|[] [|v s]]; try discriminate.
    destruct (hget (t_heap t) id) as [[? ? []]|]; try discriminate.
    destruct (_ <? _); inversion E; subst; auto.
  - destruct (t_stk t) as [|b [|a s]]; try discriminate. obinv E. inversion E; subst; auto.
  - destruct (t_stk t) as [|a s]; try discriminate. obinv E. inversion E; subst; auto.
  - destruct (t_stk t) as [|a s]; try discriminate. obinv E. inversion E; subst; auto.
  - destruct (t_stk t) as [|b [|a s]]; try discriminate. obinv E. inversion E; subst; auto.
  - destruct (t_stk t) as [|a s]; try discriminate. obinv E. inversion E; subst; auto.
  - obinv E. destruct r as [v t1]. apply pop_ctl in Em. destruct Em as (? & ? & ? & ?).
    unfold glob_put in E. destruct (t_globs t1); [|discriminate].
    destruct (_ <? _); inversion E; subst; auto.
  - obinv E. apply push_ctl in E. destruct E as (? & ? & ? & ?); auto.
  - destruct (_ <=? _); [|discriminate]. destruct (nth_error _ _); [|discriminate].
    obinv E. destruct r as [v t1]. obinv E. inversion E; subst.
    apply fprog_ctl in Em. destruct Em as (? & ? & ? & ? & ?). auto.
  - obinv E. apply push_ctl in E. destruct E as (? & ? & ? & ?); auto.
  - obinv E. apply push_ctl in E. destruct E as (? & ? & ? & ?); auto.
  - obinv E. destruct r as [v t1]. obinv E. apply pop_ctl in Em. destruct Em as (? & ? & ? & ?).
    inversion E; subst; auto.
Qed.

(** One instruction changes at most the innermost frame. *)
Lemma exec_frames i t t' n : exec M callf i t = Ok t' -> n < length (t_frames t) -> fkeep n t t'.
Proof.
  intros E L. destruct (straight i) eqn:S.
  - destruct (exec_straight _ _ _ S E) as (_ & _ & F). unfold fkeep. rewrite F. split; [lia|auto].
  - assert (PI : forall u u', pop_indir u = Ok u' -> t_frames u = t_frames t -> fkeep n t u').
    { intros u u' P F. unfold pop_indir in P. rewrite F in P. unfold fkeep.
      destruct (t_frames t) as [|f fr]; [discriminate|]. destruct (_ <=? _); [|discriminate].
      destruct (cut _ _); try discriminate. destruct (cut _ _); try discriminate.
      inversion P; subst. cbn [t_frames with_ctl]. simpl in L. split; [lia|]. rewrite bottom_cons by lia. reflexivity. }
    destruct i; try discriminate S; cbn [exec] in E.
    + inversion E; subst. split; [cbn; lia|reflexivity].
    + obinv E. destruct r as [v t1]. obinv E. apply pop_ctl in Em. destruct Em as (_ & F & _).
      inversion E; subst. unfold fkeep. destruct r; cbn; rewrite F; split; auto; lia.
    + obinv E. unfold push_indir, oassert in Em. destruct (_ <? _); [|discriminate].
      inversion Em; subst. destruct (nth_error _ _); inversion E; subst.
      unfold fkeep; cbn [t_frames with_ctl with_pc]. split; [simpl; lia|]. rewrite bottom_cons by lia. reflexivity.
    + eapply PI; eauto.
    + obinv E. destruct r as [v t1]. apply pop_ctl in Em. destruct Em as (_ & F & _).
      eapply PI; [exact E|]. cbn. auto.
    + inversion E; subst. split; [cbn; lia|reflexivity].
Qed.

Lemma cycle_frames t b t' n : cycle M callf poll t = Ok (b, t') ->
  n < length (t_frames t) -> fkeep n t t'.
Proof.
  unfold cycle. intros E L. destruct (_ <? _)%Z. { inversion E; subst. split; [lia|auto]. }
  obinv E. destruct r as [i nx]. obinv E. obinv E. inversion E; subst.
  pose proof (exec_frames _ _ _ n Em0 L) as K. unfold fkeep in *. cbn in K.
  destruct (poll _ _).
  - apply gc_frame in Em1. destruct Em1 as (_ & _ & _ & F & _). rewrite F. exact K.
  - inversion Em1; subst. exact K.
Qed.
End Frame.

Section Frame2.
Context {H : Type} (M : machine H) (poll : nat -> nat -> bool).

Lemma cut_length s n s' : cut s n = Ok s' -> length s' = n.
Proof.
  unfold cut. destruct (Nat.leb_spec n (length s)); intros E; inversion E; subst.
  rewrite skipn_length. lia.
Qed.

Lemma enter_frames t f a t' : enter_call M t f a = Ok t' ->
  exists fr, t_frames t' = fr :: t_frames t.
Proof.
  unfold enter_call, oassert, push_indir, oassert.
  destruct (0 <=? f)%Z; [|discriminate]. destruct (room _ _); [|discriminate].
  destruct (nth_error _ _); [|discriminate]. destruct (_ <? _); [|discriminate].
  intros E; inversion E; subst. cbn. unfold alloc_globals. destruct (t_globs t); eexists; reflexivity.
Qed.

Lemma loop_call_ctl : forall fuel,
  (forall floor t t' n, loop M poll fuel floor t = Ok t' ->
     (match floor with Some fc => n <= fc | None => False end) -> n <= length (t_frames t) ->
     fkeep n t t') /\
  (forall t f a v t', call_function M poll fuel t f a = Ok (v, t') -> ctl_same t t').
Proof.
  assert (C : forall fuel,
    (forall floor t t' n, loop M poll fuel floor t = Ok t' ->
      (match floor with Some fc => n <= fc | None => False end) -> n <= length (t_frames t) ->
      fkeep n t t') ->
    forall t f a v t', call_function M poll fuel t f a = Ok (v, t') -> ctl_same t t').
  { intros fuel L t f a v t' E. unfold call_function in E. obinv E. obinv E.
    destruct (enter_frames _ _ _ _ Em) as (fr & F).
    assert (K : fkeep (length (t_frames t)) r r0).
    { eapply L; [exact Em0|simpl; lia|]. rewrite F. simpl. lia. }
    destruct K as [K1 K2]. rewrite F, bottom_cons, bottom_all in K2 by lia.
    unfold leave_call in E. obinv E. apply cut_length in Em1.
    destruct (_ <=? _); inversion E; subst. unfold ctl_same; cbn.
    repeat split; auto. }
  induction fuel as [|f IH].
  - split; [|apply C; intros floor t t' n E; simpl in E].
    + intros floor t t' n E HF HL. simpl in E.
      destruct (match floor with Some fc => _ | None => _ end); inversion E; subst.
      split; auto.
    + intros HF HL. destruct (match floor with Some fc => _ | None => _ end); inversion E; subst.
      split; auto.
  - assert (L : forall floor t t' n, loop M poll (S f) floor t = Ok t' ->
      (match floor with Some fc => n <= fc | None => False end) -> n <= length (t_frames t) ->
      fkeep n t t').
    { intros floor t t' n E HF HL. destruct floor as [fc|]; [|contradiction].
      rewrite loop_S in E. destruct (Nat.ltb_spec fc (length (t_frames t))).
      2:{ inversion E; subst. split; auto. }
      obinv E. destruct r as [b t1].
      assert (K : fkeep n t t1).
      { eapply cycle_frames; [|exact Em|lia]. intros; eapply (proj2 IH); eauto. }
      destruct b.
      - destruct IH as [IL _]. destruct (IL (Some fc) t1 t' n E HF (proj1 K)) as [K1 K2].
        destruct K as [_ K3]. split; [auto|congruence].
      - inversion E; subst. auto. }
    split; [exact L|]. apply C. exact L.
Qed.

Lemma call_ctl fuel t f a v t' : call_function M poll fuel t f a = Ok (v, t') -> ctl_same t t'.
Proof. apply (loop_call_ctl fuel). Qed.

(** Inversion of a cycle at a known instruction. *)
Lemma cycles_inv t i next b t' : at_instr M t i next -> cycles M poll t (Ok (b, t')) ->
  b = true /\ exists fuel t1, exec M (call_function M poll fuel) i (with_pc t next) = Ok t1 /\
    (if poll (t_nobj t1) (t_max t1) then gc M t1 = Ok t' else t' = t1).
Proof.
  intros [P D] (_ & fuel & E). unfold execute_cycle, cycle in E.
  destruct (Z.ltb_spec (t_pc t) 0); [lia|]. rewrite D in E. cbn [obind] in E.
  obinv E. obinv E. inversion E; subst. split; auto. exists fuel, r. split; auto.
  destruct (poll _ _); [auto|]. inversion Em0; auto.
Qed.

Lemma straight_pc t i next b t' : at_instr M t i next -> straight i = true ->
  cycles M poll t (Ok (b, t')) -> t_pc t' = next /\ t_fp t' = t_fp t /\ t_frames t' = t_frames t.
Proof.
  intros A S C. destruct (cycles_inv _ _ _ _ _ A C) as (_ & fuel & t1 & E & G).
  destruct (exec_straight M _ (fun t f a v t' => call_ctl fuel t f a v t') _ _ _ S E) as (E1 & E2 & E3).
  destruct (poll _ _).
  - apply gc_frame in G. destruct G as (G1 & G2 & _ & G3 & _).
    rewrite G1, G2, G3, E1, E2, E3. auto.
  - subst. rewrite E1, E2, E3. auto.
Qed.
End Frame2.
