(** * The type checker and the typing rules: statements *)
From Verif Require Import Base Token Values Syntax Symbols Resolve CompileProofs TableInv Typing TypingProofs TypingExpr.
Local Open Scope nat_scope.

Definition at_i (g : tag) (i : nat) (l : list lvar) : list lvar :=
  map (fun p => if fst p =? i then lv_set_tag g (snd p) else snd p) (combine (seq 0 (length l)) l).
Lemma at_i_update g : forall l i v, nth_error l i = Some v -> at_i g i l = update l i (lv_set_tag g v).
Proof.
  unfold at_i. intros l.
  assert (G : forall k i v, nth_error l i = Some v ->
    map (fun p => if fst p =? k + i then lv_set_tag g (snd p) else snd p) (combine (seq k (length l)) l) = update l i (lv_set_tag g v)).
  { induction l as [|x l IH]; intros k [|i] v N; cbn [nth_error] in N; try discriminate.
    - injection N as <-. cbn [length seq combine map fst snd]. rewrite Nat.add_0_r, Nat.eqb_refl. change (update (x :: l) 0 (lv_set_tag g x)) with (lv_set_tag g x :: l). f_equal.
      clear IH. assert (Q : forall m, k < m -> map (fun p => if fst p =? k then lv_set_tag g (snd p) else snd p) (combine (seq m (length l)) l) = l).
      { induction l as [|y l IH]; intros m L; cbn; auto. rewrite (proj2 (Nat.eqb_neq m k)) by lia. f_equal. apply IH. lia. }
      apply Q. lia.
    - cbn [length seq combine map fst snd]. rewrite (proj2 (Nat.eqb_neq k (k + S i))) by lia. change (update (x :: l) (S i) (lv_set_tag g v)) with (x :: update l i (lv_set_tag g v)). f_equal.
      rewrite <- (IH (S k) i v N). apply map_ext. intros p. replace (S k + i) with (k + S i) by lia. reflexivity. }
  intros i v N. rewrite <- (G 0 i v N). reflexivity.
Qed.

Lemma var_put t id y b : unique t -> sym_at t id = Some y ->
  forall h : sym -> sym, (forall z, In z (tb_syms t) -> sy_id z <> id -> h z = z) -> h y = mkSym id (sy_name y) b ->
  put_body t id b = set_syms t (map h (tb_syms t)).
Proof.
  intros U F h Hz Hy. unfold put_body. f_equal. apply map_ext_in. intros z I. destruct (Nat.eqb_spec (sy_id z) id) as [E|N].
  - rewrite (sym_at_unique _ _ _ _ U F I E). symmetry. exact Hy.
  - symmetry. apply Hz; auto.
Qed.
Lemma set_tag_iff v g t u t' : unique t -> set_var_tag v g t = COk u t' <-> a_variable t v /\ t' = declare_type t v g.
Proof.
  intros U. destruct u. unfold declare_type. split.
  - destruct v as [id|id|f i|f i]; cbn [set_var_tag put_var].
    + destruct (sym_at t id) as [[id' nm []]|] eqn:F; try discriminate. intros [= <-]. pose proof (sym_at_id _ _ _ F) as Q. injection Q as ->. split.
      * apply denotes_at in F. econstructor. exact F.
      * apply (var_put _ _ _ _ U F).
        -- intros z _ N. unfold with_type. destruct (sy_body z); auto. rewrite (proj2 (Nat.eqb_neq _ _) N). reflexivity.
        -- unfold with_type. cbn [sy_body sy_id sy_name]. rewrite Nat.eqb_refl. reflexivity.
    + discriminate.
    + destruct (sym_at t f) as [[id' nm []]|] eqn:F; try discriminate. destruct (nth_error locals i) as [v|] eqn:N; [|discriminate]. intros [= <-].
      pose proof (sym_at_id _ _ _ F) as Q. injection Q as ->. split.
      * apply denotes_at in F. eapply av_local; [exact F|]. apply nth_error_Some. congruence.
      * apply (var_put _ _ _ _ U F).
        -- intros z _ M. unfold with_type. destruct (sy_body z); auto. rewrite (proj2 (Nat.eqb_neq _ _) M). reflexivity.
        -- unfold with_type. cbn [sy_body sy_id sy_name]. rewrite Nat.eqb_refl. rewrite <- (at_i_update _ _ _ _ N). reflexivity.
    + destruct (sym_at t f) as [[id' nm []]|] eqn:F; try discriminate. destruct (nth_error args i) as [v|] eqn:N; [|discriminate]. intros [= <-].
      pose proof (sym_at_id _ _ _ F) as Q. injection Q as ->. split.
      * apply denotes_at in F. eapply av_arg; [exact F|]. apply nth_error_Some. congruence.
      * apply (var_put _ _ _ _ U F).
        -- intros z _ M. unfold with_type. destruct (sy_body z); auto. rewrite (proj2 (Nat.eqb_neq _ _) M). reflexivity.
        -- unfold with_type. cbn [sy_body sy_id sy_name]. rewrite Nat.eqb_refl. rewrite <- (at_i_update _ _ _ _ N). reflexivity.
  - intros (A & ->). destruct A as [id nm i b g' D|f nm n a l r i D L|f nm n a l r i D L]; apply denotes_at in D; cbn [set_var_tag put_var]; rewrite D.
    + f_equal. apply (var_put _ _ _ _ U D).
      * intros z _ N. unfold with_type. destruct (sy_body z); auto. rewrite (proj2 (Nat.eqb_neq _ _) N). reflexivity.
      * unfold with_type. cbn [sy_body sy_id sy_name]. rewrite Nat.eqb_refl. reflexivity.
    + destruct (nth_error l i) as [v|] eqn:N; [|apply nth_error_None in N; lia]. f_equal. apply (var_put _ _ _ _ U D).
      * intros z _ M. unfold with_type. destruct (sy_body z); auto. rewrite (proj2 (Nat.eqb_neq _ _) M). reflexivity.
      * unfold with_type. cbn [sy_body sy_id sy_name]. rewrite Nat.eqb_refl. rewrite <- (at_i_update _ _ _ _ N). reflexivity.
    + destruct (nth_error a i) as [v|] eqn:N; [|apply nth_error_None in N; lia]. f_equal. apply (var_put _ _ _ _ U D).
      * intros z _ M. unfold with_type. destruct (sy_body z); auto. rewrite (proj2 (Nat.eqb_neq _ _) M). reflexivity.
      * unfold with_type. cbn [sy_body sy_id sy_name]. rewrite Nat.eqb_refl. rewrite <- (at_i_update _ _ _ _ N). reflexivity.
Qed.
Lemma declare_unique t v g : unique t -> unique (declare_type t v g).
Proof.
  unfold unique, declare_type. cbn [tb_syms set_syms]. rewrite map_map. intros U. erewrite map_ext; [exact U|].
  intros y. unfold with_type. destruct v; auto; destruct (sy_body y); auto; destruct (_ =? _); reflexivity.
Qed.

Lemma check_bool_ok te t u t' : check_bool te t = COk u t' <-> t' = t /\ tag_of te = GBool.
Proof.
  unfold check_bool. rewrite bind_ok. destruct u. split.
  - intros (k & t1 & E & E'). apply kindm_ok in E as (-> & K). destruct (same_kind k KBoolT) eqn:Q; [|discriminate]. apply same_bool in Q. subst k. apply kind_bool in K. injection E' as <-. auto.
  - intros (-> & G). exists KBoolT, t. split; [apply kindm_ok; split; [reflexivity|apply kind_bool, G]|reflexivity].
Qed.
Lemma ret_iff t g t' : ret_tag t = COk g t' <-> t' = t /\ result_type t g.
Proof.
  unfold ret_tag, result_type. split.
  - destruct (tb_func t) as [f|] eqn:Ef; [|discriminate]. destruct (sym_at t f) as [[id nm []]|] eqn:F; try discriminate. destruct ret as [r|]; [|discriminate].
    intros [= <- <-]. pose proof (sym_at_id _ _ _ F) as Q. injection Q as ->. apply denotes_at in F. split; eauto 10.
  - intros (-> & f & nm & n & a & l & Ef & D). apply denotes_at in D. rewrite Ef, D. reflexivity.
Qed.
Lemma assign_iff op : is_assign op = true <-> In op assign_ops.
Proof. destruct op; cbn; split; intros Q; try discriminate Q; try reflexivity; try tauto; repeat (destruct Q as [Q|Q]; [discriminate Q|]); destruct Q. Qed.

Definition exact_stmt (s : stmt) : Prop := forall t ts t', unique t -> (resolve_stmt s t = COk ts t' <-> well_typed t s ts t') /\ (well_typed t s ts t' -> unique t').
Lemma all_iff ss : Forall exact_stmt ss -> forall t tss t', unique t ->
  ((fix go (ss : list stmt) : tbl -> cres tbl (list tstmt) :=
      match ss with [] => cret [] | s :: ss' => cbind (resolve_stmt s) (fun t => cbind (go ss') (fun ts => cret (t :: ts))) end) ss t = COk tss t'
   <-> all_typed t ss tss t') /\ (all_typed t ss tss t' -> unique t').
Proof.
  induction 1 as [|s ss Es F IH]; intros t tss t' U.
  - split; [split|]; [intros [= <- <-]; constructor|intros A; inversion A; reflexivity|intros A; inversion A; subst; auto].
  - split.
    + rewrite bind_ok. split.
      * intros (ts & t1 & E & E'). apply (Es _ _ _ U) in E. pose proof (proj2 (Es _ _ _ U) E) as U1. apply bind_ok in E' as (l & t2 & E1 & E2). apply (IH _ _ _ U1) in E1.
        injection E2 as <- <-. econstructor; eauto.
      * intros A. inversion A; subst. match goal with H : well_typed _ _ _ _ |- _ => pose proof (proj2 (Es _ _ _ U) H) as U1; pose proof (proj2 (proj1 (Es _ _ _ U)) H) as E end.
        eexists _, _. split; [exact E|]. apply bind_ok. match goal with H : all_typed _ _ _ _ |- _ => pose proof (proj2 (proj1 (IH _ _ _ U1)) H) as E1 end. eexists _, _. split; [exact E1|reflexivity].
    + intros A. inversion A; subst. match goal with H : well_typed _ _ _ _ |- _ => pose proof (proj2 (Es _ _ _ U) H) as U1 end. match goal with H : all_typed _ _ _ _ |- _ => exact (proj2 (IH _ _ _ U1) H) end.
Qed.

Lemma stmt_iff s : exact_stmt s.
Proof.
  unfold exact_stmt. induction s as [n f a|n o l r|n ss IH|n f b IH|n c a b IHa IHb|n c b IH|n i c s b IHi IHs IHb|n e|n|n|n m a x] using stmt_ind'; intros t ts t' U; cbn [resolve_stmt].
  - split; [|intros A; inversion A; subst; auto]. rewrite bind_ok. split.
    + intros (e & t1 & E & E'). apply resolve_iff in E as (-> & T). destruct e; try discriminate E'. injection E' as <- <-. inversion T; subst. econstructor. exact T.
    + intros A. inversion A; subst. eexists _, _. split; [apply resolve_iff; split; [reflexivity|eassumption]|reflexivity].
  - split.
    2: { intros A; inversion A; subst; auto. apply declare_unique, U. }
    destruct (tok_eqb o DECLARE) eqn:Od.
    + apply tok_eqb_eq in Od. subst o. split.
      * destruct l as [| | | | | |nm [v|]| | | | | | | | |]; try discriminate. intros E. bo E r' t1 E1 E. apply resolve_iff in E1 as (-> & T). bo E k t1 E1 E. apply kindm_ok in E1 as (-> & K).
        bo E u t1 E1 E. destruct (same_kind k KVoid) eqn:Q; [discriminate E1|]. injection E1 as <- <-. bo E u2 t1 E1 E. apply (set_tag_iff _ _ _ _ _ U) in E1 as (V & ->). injection E as <- <-.
        econstructor; eauto; [apply kind_is; eauto|]. intros G. apply (kind_void t) in G. rewrite G in K. injection K as <-. discriminate Q.
      * intros A. inversion A; subst; try (match goal with H : In DECLARE assign_ops |- _ => cbn in H; repeat (destruct H as [H|H]; [discriminate H|]); destruct H end);
          try (match goal with H : ~ In _ _ |- _ => destruct (H (or_introl eq_refl)) end).
        match goal with H : is_type _ _ |- _ => apply kind_is in H as (k & K) end.
        apply bind_ok. eexists _, _. split; [apply resolve_iff; split; [reflexivity|eassumption]|]. apply bind_ok. exists k, t. split; [apply kindm_ok; auto|].
        apply bind_ok. exists tt, t. split. { destruct (same_kind k KVoid) eqn:Q; [|reflexivity]. apply same_void in Q. subst k. apply kind_void in K. contradiction. }
        apply bind_ok. exists tt, (declare_type t v (tag_of te)). split; [apply set_tag_iff; auto|reflexivity].
    + apply tok_eqb_neq in Od. destruct (is_assign o) eqn:Oa.
      * pose proof (proj1 (assign_iff _) Oa) as Io. split.
        -- intros E. bo E l' t1 E1 E. apply resolve_iff in E1 as (-> & Tl). bo E r' t1 E1 E. apply resolve_iff in E1 as (-> & Tr). bo E u t1 E1 E. apply check_ok in E1 as (-> & As).
           injection E as <- <-. constructor; auto.
        -- intros A. inversion A; subst; try congruence; try (match goal with H : ~ In _ _ |- _ => destruct (H (or_intror (or_intror Io))) end); try discriminate Oa.
           apply bind_ok. exists tl, t'. split; [apply resolve_iff; auto|]. apply bind_ok. exists te, t'. split; [apply resolve_iff; auto|]. apply bind_ok. exists tt, t'. split; [apply check_ok; auto|reflexivity].
      * assert (NI : ~ In o assign_ops) by (intros I; apply assign_iff in I; congruence). split.
        -- intros E. bo E r' t1 E1 E. apply resolve_iff in E1 as (-> & Tr). injection E as <- <-. destruct (tok_eqb o DECLARECONST) eqn:Oc.
           ++ apply tok_eqb_eq in Oc. subst o. econstructor. exact Tr.
           ++ apply tok_eqb_neq in Oc. econstructor; [|exact Tr]. intros [Q|[Q|Q]]; [congruence|congruence|contradiction].
        -- intros A. inversion A; subst; try congruence; try contradiction; apply bind_ok; (eexists _, _; split; [apply resolve_iff; split; [reflexivity|eassumption]|]); [reflexivity|].
           destruct (tok_eqb o DECLARECONST) eqn:Oc; [|reflexivity]. apply tok_eqb_eq in Oc. subst o. match goal with H : ~ In _ _ |- _ => destruct (H (or_intror (or_introl eq_refl))) end.
  - split.
    + rewrite bind_ok. split.
      * intros (l & t1 & E & E'). injection E' as <- <-. constructor. apply (all_iff _ IH _ _ _ U). exact E.
      * intros A. inversion A; subst. match goal with H : all_typed _ _ _ _ |- _ => pose proof (proj2 (proj1 (all_iff _ IH _ _ _ U)) H) as E end. eexists _, _. split; [exact E|reflexivity].
    + intros A. inversion A; subst. match goal with H : all_typed _ _ _ _ |- _ => exact (proj2 (all_iff _ IH _ _ _ U) H) end.
  - assert (U1 : unique (set_func t (Some f))) by exact U. split.
    + split.
      * intros E. bo E t1 t2 E1 E. injection E1 as <- <-. bo E u t1 E1 E. injection E1 as <- <-. bo E b' t1 E1 E. apply (IH _ _ _ U1) in E1. bo E u2 t2 E2 E. injection E2 as <- <-. injection E as <- <-.
        constructor. exact E1.
      * intros A. inversion A; subst. match goal with H : well_typed _ _ _ _ |- _ => pose proof (proj2 (proj1 (IH _ _ _ U1)) H) as E end. apply bind_ok. exists t, t. split; [reflexivity|]. apply bind_ok. eexists _, _. split; [reflexivity|].
        apply bind_ok. eexists _, _. split; [exact E|]. apply bind_ok. eexists _, _. split; reflexivity.
    + intros A. inversion A; subst. match goal with H : well_typed _ _ _ _ |- _ => exact (proj2 (IH _ _ _ U1) H) end.
  - split.
    + split.
      * intros E. bo E c' t1 E1 E. apply resolve_iff in E1 as (-> & Tc). bo E u t1 E1 E. apply check_bool_ok in E1 as (-> & B). bo E a' t1 E1 E. apply (IHa _ _ _ U) in E1. pose proof (proj2 (IHa _ _ _ U) E1) as U1.
        bo E b' t2 E2 E. injection E as <- <-. destruct b as [b|].
        -- bo E2 x t3 E2 E. apply (IHb _ eq_refl _ _ _ U1) in E2. injection E as <- <-. econstructor; eauto.
        -- injection E2 as <- <-. constructor; auto.
      * intros A. inversion A; subst.
        -- match goal with H : well_typed _ a _ _ |- _ => pose proof (proj2 (proj1 (IHa _ _ _ U)) H) as E end. apply bind_ok. exists tc, t. split; [apply resolve_iff; auto|]. apply bind_ok. exists tt, t. split; [apply check_bool_ok; auto|].
           apply bind_ok. eexists _, _. split; [exact E|]. apply bind_ok. eexists _, _. split; reflexivity.
        -- match goal with H : well_typed _ a _ _ |- _ => pose proof (proj2 (IHa _ _ _ U) H) as U1; pose proof (proj2 (proj1 (IHa _ _ _ U)) H) as E end. match goal with H : well_typed _ b0 _ _ |- _ => pose proof (proj2 (proj1 (IHb _ eq_refl _ _ _ U1)) H) as E2 end.
           apply bind_ok. exists tc, t. split; [apply resolve_iff; auto|]. apply bind_ok. exists tt, t. split; [apply check_bool_ok; auto|].
           apply bind_ok. eexists _, _. split; [exact E|]. apply bind_ok. eexists _, _. split; [apply bind_ok; eexists _, _; split; [exact E2|reflexivity]|reflexivity].
    + intros A. inversion A; subst.
      * match goal with H : well_typed _ a _ _ |- _ => exact (proj2 (IHa _ _ _ U) H) end.
      * match goal with H : well_typed _ a _ _ |- _ => pose proof (proj2 (IHa _ _ _ U) H) as U1 end. match goal with H : well_typed _ b0 _ _ |- _ => exact (proj2 (IHb _ eq_refl _ _ _ U1) H) end.
  - split.
    + split.
      * intros E. bo E c' t1 E1 E. apply resolve_iff in E1 as (-> & Tc). bo E u t1 E1 E. apply check_bool_ok in E1 as (-> & B). bo E b' t1 E1 E. apply (IH _ _ _ U) in E1. injection E as <- <-. constructor; auto.
      * intros A. inversion A; subst. match goal with H : well_typed _ _ _ _ |- _ => pose proof (proj2 (proj1 (IH _ _ _ U)) H) as E end. apply bind_ok. exists tc, t. split; [apply resolve_iff; auto|]. apply bind_ok. exists tt, t. split; [apply check_bool_ok; auto|].
        apply bind_ok. eexists _, _. split; [exact E|reflexivity].
    + intros A. inversion A; subst. match goal with H : well_typed _ _ _ _ |- _ => exact (proj2 (IH _ _ _ U) H) end.
  - split.
    + split.
      * intros E. bo E i' t1 E1 E. apply (IHi _ _ _ U) in E1. pose proof (proj2 (IHi _ _ _ U) E1) as U1. bo E c' t2 E2 E. apply resolve_iff in E2 as (-> & Tc). bo E u t2 E2 E. apply check_bool_ok in E2 as (-> & B).
        bo E s' t2 E2 E. apply (IHs _ _ _ U1) in E2. pose proof (proj2 (IHs _ _ _ U1) E2) as U2. bo E b' t3 E3 E. apply (IHb _ _ _ U2) in E3. injection E as <- <-. econstructor; eauto.
      * intros A. inversion A; subst. match goal with H : well_typed _ i _ _ |- _ => pose proof (proj2 (IHi _ _ _ U) H) as U1; pose proof (proj2 (proj1 (IHi _ _ _ U)) H) as E1 end.
        match goal with H : well_typed _ s _ _ |- _ => pose proof (proj2 (IHs _ _ _ U1) H) as U2; pose proof (proj2 (proj1 (IHs _ _ _ U1)) H) as E2 end. match goal with H : well_typed _ b _ _ |- _ => pose proof (proj2 (proj1 (IHb _ _ _ U2)) H) as E3 end.
        apply bind_ok. eexists _, _. split; [exact E1|]. apply bind_ok. exists tc, t1. split; [apply resolve_iff; auto|]. apply bind_ok. exists tt, t1. split; [apply check_bool_ok; auto|].
        apply bind_ok. eexists _, _. split; [exact E2|]. apply bind_ok. eexists _, _. split; [exact E3|reflexivity].
    + intros A. inversion A; subst. match goal with H : well_typed _ i _ _ |- _ => pose proof (proj2 (IHi _ _ _ U) H) as U1 end.
      match goal with H : well_typed _ s _ _ |- _ => pose proof (proj2 (IHs _ _ _ U1) H) as U2 end. match goal with H : well_typed _ b _ _ |- _ => exact (proj2 (IHb _ _ _ U2) H) end.
  - split; [|intros A; inversion A; subst; auto]. split.
    + intros E. bo E g t1 E1 E. apply ret_iff in E1 as (-> & R). destruct e as [e|].
      * bo E e' t1 E1 E. apply resolve_iff in E1 as (-> & T). bo E u t1 E1 E. apply check_ok in E1 as (-> & As). injection E as <- <-. econstructor; eauto.
      * bo E k t1 E1 E. apply kindm_ok in E1 as (-> & K). destruct (same_kind k KVoid) eqn:Q; [|discriminate E]. apply same_void in Q. subst k. apply kind_void in K. subst g. injection E as <- <-. constructor. exact R.
    + intros A. inversion A; subst.
      * apply bind_ok. exists g, t'. split; [apply ret_iff; auto|]. apply bind_ok. exists te, t'. split; [apply resolve_iff; auto|]. apply bind_ok. exists tt, t'. split; [apply check_ok; auto|reflexivity].
      * apply bind_ok. exists GVoid, t'. split; [apply ret_iff; auto|]. apply bind_ok. exists KVoid, t'. split; [apply kindm_ok; auto|reflexivity].
  - split; [split|]; [intros [= <- <-]; constructor|intros A; inversion A; reflexivity|intros A; inversion A; subst; auto].
  - split; [split|]; [intros [= <- <-]; constructor|intros A; inversion A; reflexivity|intros A; inversion A; subst; auto].
  - split; [split|]; [intros [= <- <-]; constructor|intros A; inversion A; reflexivity|intros A; inversion A; subst; auto].
Qed.
Lemma program_iff ss t tss t' : unique t -> (resolve_all ss t = COk tss t' <-> all_typed t ss tss t') /\ (all_typed t ss tss t' -> unique t').
Proof.
  intros U. assert (F : Forall exact_stmt ss) by (apply Forall_forall; intros; apply stmt_iff). destruct (all_iff ss F t tss t' U) as (Q & Q').
  split; [|exact Q']. rewrite <- Q. clear. assert (E : forall t, resolve_all ss t = (fix go (ss : list stmt) : tbl -> cres tbl (list tstmt) :=
      match ss with [] => cret [] | s :: ss' => cbind (resolve_stmt s) (fun t => cbind (go ss') (fun ts => cret (t :: ts))) end) ss t).
  { induction ss as [|s ss IH]; intros u; [reflexivity|]. cbn [resolve_all]. unfold cbind. destruct (resolve_stmt s u); try reflexivity. }
  rewrite E. reflexivity.
Qed.
