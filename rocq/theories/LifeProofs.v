From Verif Require Import Base Values Code Heap GCSpec GCProofs VM VMBasics VMSpec VMInv LifeSpec.
From Coq Require Import Bool.
Local Open Scope nat_scope.

Definition balanced (h : heap) (w : log) : Prop := forall a p, p <> 0 -> born a p w = died a p w + alive a p h.

Lemma born_snoc a p w e : born a p (w ++ [e]) = born a p w + (if event_dec e (Born a p) then 1 else 0).
Proof. unfold born. rewrite count_occ_app. cbn. destruct (event_dec e (Born a p)); lia. Qed.
Lemma died_snoc a p w e : died a p (w ++ [e]) = died a p w + (if event_dec e (Died a p) then 1 else 0).
Proof. unfold died. rewrite count_occ_app. cbn. destruct (event_dec e (Died a p)); lia. Qed.

Definition is_nat (a : Z) (p : nat) (o : obj) : bool :=
  match o_body o with BNative a' p' => (a' =? a)%Z && (p' =? p) | _ => false end.
Lemma alive_cons a p o h : alive a p (o :: h) = (if is_nat a p o then 1 else 0) + alive a p h.
Proof. unfold alive. cbn [filter]. fold (is_nat a p o). destruct (is_nat a p o); reflexivity. Qed.

Lemma alive_hset a p h id fs fs' i m : hget h id = Some (mkObj i m (BStruct fs)) ->
  alive a p (hset h id (fun o => mkObj (o_id o) (o_mark o) (BStruct fs'))) = alive a p h.
Proof.
  induction h as [|o h IH]; [discriminate|]. simpl. destruct (o_id o =? id).
  - intros E. inversion E; subst o. rewrite !alive_cons. reflexivity.
  - intros E. rewrite !alive_cons, IH; auto.
Qed.

Lemma finalize_log {H} (N : natives H) : forall l w,
  forall a p, p <> 0 ->
    born a p (snd (finalize_all (logged_natives N) w l)) = born a p (snd w) /\
    died a p (snd (finalize_all (logged_natives N) w l)) = died a p (snd w) + alive a p l.
Proof.
  induction l as [|o l IH]; intros w a p Hp.
  - unfold alive. cbn. split; lia.
  - match goal with |- context [finalize_all ?x ?y (o :: l)] => change (finalize_all x y (o :: l)) with (finalize_all x (match o_body o with BNative a p => if p =? 0 then y else n_finalize x p y a | _ => y end) l) end. rewrite alive_cons.
    unfold is_nat. destruct (o_body o) as [s|a' p'|fs]; [apply IH; auto| |apply IH; auto].
    destruct (p' =? 0) eqn:Z0.
    + apply Nat.eqb_eq in Z0. subst p'. destruct (Nat.eqb_spec 0 p); [congruence|]. rewrite andb_false_r. apply IH; auto.
    + destruct (IH (n_finalize (logged_natives N) p' w a') a p Hp) as (-> & ->).
      cbn [n_finalize logged_natives snd]. rewrite born_snoc, died_snoc.
      destruct (event_dec (Died a' p') (Born a p)); [discriminate|].
      destruct (Z.eqb_spec a' a); destruct (Nat.eqb_spec p' p); subst; cbn [andb].
      * destruct (event_dec (Died a p) (Died a p)); [|congruence]. lia.
      * destruct (event_dec (Died a p') (Died a p)); [congruence|]. lia.
      * destruct (event_dec (Died a' p) (Died a p)); [congruence|]. lia.
      * destruct (event_dec (Died a' p') (Died a p)); [congruence|]. lia.
Qed.

Lemma keeps_alive a p (P : obj -> Prop) h l1 l2 : keeps P h l1 -> keeps (fun o => ~ P o) h l2 ->
  alive a p h = alive a p l1 + alive a p l2.
Proof.
  intros K. revert l2. induction K; intros l2 K2; inversion K2; subst; try contradiction.
  - reflexivity.
  - rewrite !alive_cons, (IHK _ H4). lia.
  - rewrite !alive_cons, (IHK _ H4). lia.
Qed.

Section L.
Context {H : Type} (M : machine H) (poll : nat -> nat -> bool).
Let N := logged M.
Notation thr := (thread (H * log)).

Definition LT (t : thr) : Prop := ok3 (t_heap t) (t_next t) (t_nobj t) /\ balanced (t_heap t) (snd (t_host t)).
Definition same4 (t t' : thr) : Prop := same_heap t t' /\ t_host t' = t_host t.

Lemma same_LT t t' : same4 t t' -> LT t -> LT t'.
Proof. unfold same4, same_heap, LT. intros ((-> & -> & ->) & ->). auto. Qed.

Ltac fin E := inversion E; subst; repeat split.
Lemma push_same4 t v t' : push N t v = Ok t' -> same4 t t'.
Proof. unfold push. destruct (room _ _); intros E; fin E. Qed.
Lemma pop_same4 (t : thr) v t' : pop t = Ok (v, t') -> same4 t t'.
Proof. unfold pop. destruct (t_stk t); intros E; fin E. Qed.
Lemma push_indir_same4 t n t' : push_indir N t n = Ok t' -> same4 t t'.
Proof. unfold push_indir. destruct (_ <? _); intros E; fin E. Qed.
Lemma pop_indir_same4 (t : thr) t' : pop_indir t = Ok t' -> same4 t t'.
Proof.
  unfold pop_indir. destruct (t_frames t); [discriminate|]. destruct (_ <=? _); [|discriminate].
  destruct (cut _ _); try discriminate. destruct (cut _ _); try discriminate. intros E; fin E.
Qed.
Lemma glob_put_same4 (t : thr) i v t' : glob_put t i v = Ok t' -> same4 t t'.
Proof.
  unfold glob_put. destruct (t_globs t); [|discriminate]. destruct (_ <? _); [|discriminate]. intros E; fin E.
Qed.
Lemma set_global_same4 t i v t' : set_global N t i v = Ok t' -> same4 t t'.
Proof.
  unfold set_global, oassert. destruct (_ && _)%bool; [|discriminate].
  destruct (t_globs t) eqn:G; [|discriminate]. apply glob_put_same4.
Qed.
Lemma alloc_globals_same4 t : same4 t (alloc_globals N t).
Proof. unfold alloc_globals. destruct (t_globs t); repeat split. Qed.

Lemma balanced_cons h w o : balanced h w -> (forall a p, p <> 0 -> is_nat a p o = false) -> balanced (o :: h) w.
Proof. intros B Q a p Hp. rewrite alive_cons, (Q a p Hp). exact (B a p Hp). Qed.

Variable callf : thr -> Z -> list value -> outcome (value * thr).
Hypothesis L_call : forall t f a v t', LT t -> callf t f a = Ok (v, t') -> LT t'.

Lemma fprog_LT : forall (p : fprog H) t v t', LT t -> run_fprog N callf (lift p) t = Ok (v, t') -> LT t'.
Proof.
  induction p; intros t v' t' Pt E; cbn [lift run_fprog] in E; try discriminate.
  - inversion E; subst; auto.
  - eauto.
  - eapply IHp; [|exact E]. exact Pt.
  - destruct (ref_of v); [|discriminate]. destruct (hget _ _); [|discriminate]. eauto.
  - cbn [alloc] in E. eapply H0; [|exact E]. destruct Pt as (O & B). split.
    + exact (ok3_alloc _ _ _ _ O).
    + cbn. apply balanced_cons; auto.
  - destruct (0 <=? t_pc t)%Z; [|discriminate]. cbn [oassert alloc run_fprog] in E.
    eapply H0; [|exact E]. destruct Pt as (O & B). split.
    + exact (ok3_alloc _ _ _ _ O).
    + change (balanced (mkObj (t_next t) false (BNative addr prop) :: t_heap t) (snd (t_host t) ++ [Born addr prop])). intros a p Hp. rewrite alive_cons, born_snoc, died_snoc. specialize (B a p Hp).
      unfold is_nat; cbn [o_body]. destruct (event_dec (Born addr prop) (Died a p)); [discriminate|].
      destruct (Z.eqb_spec addr a); destruct (Nat.eqb_spec prop p); subst; cbn [andb];
        match goal with |- context [event_dec ?x ?y] => destruct (event_dec x y) as [Q|Q] end; try congruence; lia.
  - destruct (get_global N t i); try discriminate. eauto.
  - destruct (set_global N t i v) eqn:S; try discriminate.
    eapply IHp; [|exact E]. eapply same_LT; [eapply set_global_same4; eauto|auto].
  - destruct (callf t f args) as [[w t1]| | |] eqn:C; try discriminate. eauto.
Qed.

Lemma exec_LT i t t' : LT t -> exec N callf i t = Ok t' -> LT t'.
Proof.
  intros Pt E.
  destruct i; cbn [exec] in E;
    try (eapply same_LT; [eapply push_same4; eassumption|assumption]).
  - destruct (room _ _); inversion E; subst. exact Pt.
  - destruct (_ <? _)%Z; [discriminate|]. destruct (nth_error _ _); [|discriminate].
    eapply same_LT; [eapply push_same4; eassumption|assumption].
  - destruct (_ <? _)%Z; [discriminate|]. destruct (nth_error _ _); [|discriminate].
    eapply same_LT; [eapply push_same4; eassumption|assumption].
  - unfold oassert in E. destruct (_ <? _)%Z; [|discriminate]. destruct (_ <=? _); [|discriminate].
    unfold alloc in E. eapply same_LT; [eapply push_same4; eassumption|].
    destruct Pt as (O & B). split; [exact (ok3_alloc _ _ _ _ O)|]. cbn. apply balanced_cons; auto.
  - destruct (t_stk t) as [|[] s]; try discriminate.
    destruct (hget (t_heap t) id) as [[? ? []]|]; try discriminate.
    destruct (nth_error _ _); inversion E; subst. exact Pt.
  - destruct (t_stk t) as [|[] [|v s]]; try discriminate.
    destruct (hget (t_heap t) id) as [[? ? []]|] eqn:G; try discriminate.
    destruct (_ <? _); inversion E; subst. destruct Pt as (O & B). split; [exact (ok3_set _ _ _ _ _ _ _ O)|].
    cbn. intros a p Hp. rewrite (alive_hset a p _ _ _ _ _ _ G). apply B; auto.
  - destruct (t_stk t) as [|b [|a s]]; try discriminate. obinv E. inversion E; subst; exact Pt.
  - destruct (t_stk t) as [|a s]; try discriminate. obinv E. inversion E; subst; exact Pt.
  - destruct (t_stk t) as [|a s]; try discriminate. obinv E. inversion E; subst; exact Pt.
  - destruct (t_stk t) as [|b [|a s]]; try discriminate. obinv E. inversion E; subst; exact Pt.
  - destruct (t_stk t) as [|a s]; try discriminate. obinv E. inversion E; subst; exact Pt.
  - obinv E. destruct r as [v t1]. eapply same_LT; [eapply glob_put_same4; eassumption|].
    eapply same_LT; [eapply pop_same4; eassumption|auto].
  - obinv E. eapply same_LT; [eapply push_same4; eassumption|assumption].
  - inversion E; subst; exact Pt.
  - obinv E. destruct r as [v t1]. obinv E. pose proof (same_LT _ _ (pop_same4 _ _ _ Em) Pt) as Pt1.
    inversion E; subst. destruct r; exact Pt1.
  - obinv E. destruct (nth_error _ _); inversion E; subst.
    exact (same_LT _ _ (push_indir_same4 _ _ _ Em) Pt).
  - eapply same_LT; [eapply pop_indir_same4; eassumption|exact Pt].
  - obinv E. destruct r as [v t1]. pose proof (same_LT _ _ (pop_same4 _ _ _ Em) Pt) as Pt1.
    eapply same_LT; [eapply pop_indir_same4; eassumption|exact Pt1].
  - destruct (_ <=? _); [|discriminate]. destruct (nth_error _ _) as [fn|] eqn:Fn; [|discriminate].
    unfold N in Fn. cbn [m_foreign logged] in Fn. rewrite nth_error_map in Fn.
    destruct (nth_error (m_foreign M) _) as [g|]; [|discriminate]. cbn in Fn. inversion Fn; subst fn.
    obinv E. destruct r as [v t1]. obinv E. inversion E; subst.
    pose proof (fprog_LT _ _ _ _ Pt Em) as P1. exact P1.
  - obinv E. eapply same_LT; [eapply push_same4; eassumption|assumption].
  - obinv E. eapply same_LT; [eapply push_same4; eassumption|assumption].
  - obinv E. destruct r as [v t1]. obinv E. pose proof (same_LT _ _ (pop_same4 _ _ _ Em) Pt) as Pt1.
    inversion E; subst. exact Pt1.
  - inversion E; subst; exact Pt.
Qed.

Lemma gc_LT t t' : LT t -> gc N t = Ok t' -> LT t'.
Proof.
  unfold gc. intros (O & B) E. destruct (roots N t) as [rs| | |]; try discriminate.
  destruct (collect _ _ _ _ _) as [[[[h w] n] mx]| | |] eqn:C; try discriminate.
  inversion E; subst. split; cbn; [eapply ok3_gc; eauto|].
  destruct O as (OK & _). destruct (collect_exact _ _ _ _ _ _ _ _ _ OK C) as (dead & K1 & K2 & -> & _).
  intros a p Hp. destruct (finalize_log (m_natives M) dead (t_host t) a p Hp) as (E1 & E2).
  unfold N. cbn [m_natives logged]. rewrite E1, E2, (B a p Hp), (keeps_alive a p _ _ _ _ K1 K2). lia.
Qed.

Lemma cycle_LT t b t' : LT t -> cycle N callf poll t = Ok (b, t') -> LT t'.
Proof.
  unfold cycle. intros Pt E. destruct (_ <? _)%Z. { inversion E; subst; auto. }
  obinv E. destruct r as [i nx]. obinv E. obinv E. inversion E; subst.
  assert (LT r) as P1. { eapply exec_LT; [|exact Em0]. exact Pt. }
  destruct (poll _ _); [eapply gc_LT; eauto|]. inversion Em1; subst; auto.
Qed.
End L.

Section L2.
Context {H : Type} (M : machine H) (poll : nat -> nat -> bool).
Let N := logged M.

Lemma enter_LT t f a t' : LT t -> enter_call N t f a = Ok t' -> LT t'.
Proof.
  unfold enter_call, oassert. intros Pt E. destruct (0 <=? f)%Z; [|discriminate].
  destruct (room _ _); [|discriminate]. destruct (nth_error _ _); [|discriminate].
  eapply same_LT; [eapply (push_indir_same4 M); exact E|].
  eapply same_LT with (t := alloc_globals N t); [repeat split|].
  eapply same_LT; [apply (alloc_globals_same4 M)|auto].
Qed.
Lemma leave_LT (t0 t : thread (H * log)) v t' : LT t -> leave_call t0 t = Ok (v, t') -> LT t'.
Proof.
  unfold leave_call. intros Pt E. obinv E. destruct (_ <=? _); inversion E; subst. exact Pt.
Qed.
Lemma loop_LT : forall fuel floor t t', LT t -> loop N poll fuel floor t = Ok t' -> LT t'.
Proof.
  induction fuel as [|f IH]; intros floor t t' Pt E.
  - simpl in E. destruct (match floor with Some fc => _ | None => _ end); inversion E; subst; auto.
  - rewrite loop_S in E. destruct (match floor with Some fc => _ | None => _ end).
    2:{ inversion E; subst; auto. }
    obinv E. destruct r as [b t1].
    assert (LT t1).
    { eapply (cycle_LT M poll); try eassumption. intros t0 fn a v t2 P0 C. unfold call_function in C.
      obinv C. obinv C. eapply leave_LT; [|exact C]. eapply IH; [|exact Em1].
      eapply enter_LT; [|exact Em0]. exact P0. }
    destruct b; [eauto|]. inversion E; subst; auto.
Qed.
Lemma call_LT fuel t f a v t' : LT t -> call_function N poll fuel t f a = Ok (v, t') -> LT t'.
Proof.
  unfold call_function. intros P0 C. obinv C. obinv C. eapply leave_LT; [|exact C].
  eapply loop_LT; [|exact Em0]. eapply enter_LT; [|exact Em]. exact P0.
Qed.

Lemma lives_LT t : lives M poll t -> LT t.
Proof.
  induction 1.
  - split; [split; [split; constructor|split; [reflexivity|constructor]]|]. intros a p Hp. reflexivity.
  - eapply same_LT with (t := alloc_globals N t); [repeat split|].
    eapply same_LT; [apply (alloc_globals_same4 M)|auto].
  - destruct H1 as (_ & f & E). eapply (cycle_LT M poll); [|eassumption|exact E]. intros; eapply call_LT; eauto.
  - destruct H1 as (_ & f & E). eapply (fprog_LT M); [|eassumption|exact E]. intros; eapply call_LT; eauto.
Qed.

Lemma destroy_log (t : thread (H * log)) : LT t -> forall a p, p <> 0 ->
  born a p (snd (destroy_thread N t)) = died a p (snd (destroy_thread N t)).
Proof.
  intros (_ & B) a p Hp. unfold destroy_thread.
  change (fold_left _ (t_heap t) (t_host t)) with (finalize_all (logged_natives (m_natives M)) (t_host t) (t_heap t)).
  destruct (finalize_log (m_natives M) (t_heap t) (t_host t) a p Hp) as (-> & ->). apply B; auto.
Qed.
End L2.
