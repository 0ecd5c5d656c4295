(** * Compiling more code does not change what is there (C29)

    The meaning of a function in a later state: every evaluation that ends or
    runs for ever does so too in the later state.  The later thread may have
    more global variables ([extra]), which nothing old touches. *)
From Verif Require Import Base Token Values Heap Code Syntax Symbols VM Source Compile CompileProofs Layout TableInv ParserInv
  LayTable Whole Host.
Local Open Scope nat_scope.

Definition rel {A B} (Q : A -> B -> Prop) (o : outcome A) (o' : outcome B) : Prop :=
  match o with
  | Ok a => exists b, o' = Ok b /\ Q a b
  | Fuel => o' = Fuel
  | _ => True
  end.

Lemma rel_bind {A B C D} (Q : A -> B -> Prop) (Q' : C -> D -> Prop) m m' f f' :
  rel Q m m' -> (forall a b, Q a b -> rel Q' (f a) (f' b)) -> rel Q' (obind m f) (obind m' f').
Proof.
  unfold rel. destruct m; cbn [obind]; auto.
  - intros (b & -> & q) K. cbn [obind]. apply K. exact q.
  - intros -> _. reflexivity.
Qed.
Lemma rel_eq {A} (o : outcome A) : rel eq o o.
Proof. destruct o; cbn; eauto. Qed.

Section Later.
Context {H : Type} (P P' : prog H).
Notation sst := (sst H).
Hypothesis Gd : good full (p_tbl P).
Hypothesis Un : unique (p_tbl P').
Hypothesis Ex : extends (p_tbl P) (p_tbl P').
Hypothesis St : exists x, tb_strings (p_tbl P') = tb_strings (p_tbl P) ++ x.
Hypothesis Gl : tb_nglob (p_tbl P) <= tb_nglob (p_tbl P').
Hypothesis Bo : forall f b, p_body P f = Some b -> p_body P' f = Some b.
Hypothesis Ca : p_callee P' = p_callee P.
Hypothesis Ro : p_room P' = p_room P.
Hypothesis De : p_depth P' = p_depth P.

Variable extra : list value.
Definition more (s s' : sst) : Prop :=
  s_globs s' = s_globs s ++ extra /\ s_heap s' = s_heap s /\ s_next s' = s_next s /\ s_host s' = s_host s.
Definition vmore (a b : value * sst) : Prop := fst a = fst b /\ more (snd a) (snd b).
Definition lmore (a b : list value * sst) : Prop := fst a = fst b /\ more (snd a) (snd b).
Notation vrel := (rel vmore).

Lemma rel_ret v s s' : more s s' -> vrel (Ok (v, s)) (Ok (v, s')).
Proof. intros R. exists (v, s'). split; auto. split; auto. Qed.

Lemma keep_rel h v s s' : more s s' -> vrel (keep P h v s) (keep P' h v s').
Proof. intros R. unfold keep. rewrite Ro. destruct (h <? p_room P); cbn; auto. apply rel_ret; auto. Qed.

Lemma const_rel c : rel eq (const_val P c) (const_val P' c).
Proof.
  destruct c; cbn [const_val]; try apply rel_eq. destruct (i <? 256); [|exact I].
  destruct St as (x & ->). destruct (nth_error (tb_strings (p_tbl P)) i) as [v|] eqn:E; [|exact I].
  rewrite nth_error_app1 by (apply nth_error_Some; congruence). rewrite E. apply rel_eq.
Qed.

Lemma glob_later id i : global_index P id = Some i -> global_index P' id = Some i.
Proof. exact (gidx_ext _ _ Ex id i). Qed.

Lemma sym_later id y : sym_at (p_tbl P) id = Some y -> undefined y = false ->
  exists y', sym_at (p_tbl P') id = Some y' /\ erase y' = erase y.
Proof. apply Ex. Qed.

Lemma read_rel fe r s s' : more s s' -> rel eq (read_var P fe r s) (read_var P' fe r s').
Proof.
  intros (Rg & _). destruct r as [id|id|f i|f i]; cbn [read_var]; try apply rel_eq.
  - destruct (global_index P id) as [i|] eqn:E; [|exact I]. rewrite (glob_later _ _ E), Rg.
    destruct (nth_error (s_globs s) i) as [v|] eqn:N; [|exact I].
    rewrite nth_error_app1 by (apply nth_error_Some; congruence). rewrite N. apply rel_eq.
  - destruct (sym_at (p_tbl P) id) as [[yi yn []]|] eqn:E; try exact I.
    destruct (sym_later _ _ E eq_refl) as ([yi' yn' b'] & E' & R). rewrite E'. unfold erase in R. cbn in R.
    destruct b'; try discriminate. injection R as _ _ ->. apply const_rel.
Qed.

Lemma update_more {A} (l e : list A) i v : i < length l -> update (l ++ e) i v = update l i v ++ e.
Proof.
  revert i. induction l as [|x l IH]; intros [|i] L; cbn in L; try lia; auto.
  unfold update in *. cbn. f_equal. apply IH. lia.
Qed.

Lemma set_globs_more s s' i v : more s s' -> i < length (s_globs s) ->
  more (set_globs s (update (s_globs s) i v)) (set_globs s' (update (s_globs s') i v)).
Proof.
  intros (Rg & Rh & Rn & Rw) L. unfold set_globs, more. cbn. rewrite Rg, update_more by auto. auto.
Qed.

Definition fmore (a b : fenv * sst) : Prop := fst a = fst b /\ more (snd a) (snd b).
Lemma write_rel fe r v s s' : more s s' -> rel fmore (write_var P fe r v s) (write_var P' fe r v s').
Proof.
  intros R. destruct r as [id|id|f i|f i]; cbn [write_var]; try exact I.
  - destruct (global_index P id) as [i|] eqn:E; [|exact I]. rewrite (glob_later _ _ E).
    destruct (Nat.ltb_spec i (length (s_globs s))); [|exact I].
    destruct (Nat.ltb_spec i (length (s_globs s'))) as [|X];
      [|destruct R as (Rg & _); rewrite Rg, app_length in X; lia].
    eexists. split; [reflexivity|]. split; auto. cbn. apply set_globs_more; auto.
  - destruct (_ <? _); cbn; auto. eexists. split; [reflexivity|]. split; auto.
  - destruct (_ <? _); cbn; auto. eexists. split; [reflexivity|]. split; auto.
Qed.

Lemma eval_list_rel {ms ms' : list (nat -> sst -> outcome (value * sst))} :
  Forall2 (fun m m' => forall h s s', more s s' -> vrel (m h s) (m' h s')) ms ms' ->
  forall h s s', more s s' -> rel lmore (eval_list ms h s) (eval_list ms' h s').
Proof.
  induction 1 as [|m m' ms ms' Hm _ IH]; intros h s s' R; cbn [eval_list].
  - exists ([], s'). split; auto. split; auto.
  - eapply rel_bind; [apply Hm; exact R|]. intros [v s1] [v' s1'] (E & R1). cbn in E, R1. subst v'.
    eapply rel_bind; [apply IH; exact R1|]. intros [vs s2] [vs' s2'] (E & R2). cbn in E, R2. subst vs'.
    eexists. split; [reflexivity|]. split; auto.
Qed.

Lemma new_obj_more s s' b : more s s' ->
  fst (new_obj s b) = fst (new_obj s' b) /\ more (snd (new_obj s b)) (snd (new_obj s' b)).
Proof. intros (Rg & Rh & Rn & Rw). unfold new_obj, more. cbn. rewrite Rh, Rn. auto. Qed.

Lemma foreign_rel call call' : (forall h f args s s', more s s' -> vrel (call h f args s) (call' h f args s')) ->
  forall p h s s', more s s' -> vrel (run_foreign P call h p s) (run_foreign P' call' h p s').
Proof.
  intros Hc. induction p as [v| | |k IH|w k IH|v k IH|x k IH|a pr k IH|i k IH|i v k IH|f args k IH];
    intros h s s' R; cbn [run_foreign]; try exact I.
  - apply rel_ret; auto.
  - pose proof R as (_ & _ & _ & ->). apply IH. exact R.
  - apply IH. destruct R as (Rg & Rh & Rn & Rw). unfold more. cbn. auto.
  - destruct (ref_of v) as [id|]; [|exact I]. pose proof R as (_ & -> & _).
    destruct (hget (s_heap s) id); [|exact I]. apply IH. exact R.
  - destruct (new_obj_more s s' (BStr x) R) as (E1 & E2). destruct (new_obj s (BStr x)), (new_obj s' (BStr x)). cbn in E1, E2. subst. apply IH; auto.
  - destruct (new_obj_more s s' (BNative a pr) R) as (E1 & E2).
    destruct (new_obj s (BNative a pr)), (new_obj s' (BNative a pr)). cbn in E1, E2. subst. apply IH; auto.
  - destruct ((0 <=? i)%Z && (i <? Z.of_nat (tb_nglob (p_tbl P)))%Z)%bool eqn:B; [|exact I].
    replace ((0 <=? i)%Z && (i <? Z.of_nat (tb_nglob (p_tbl P')))%Z)%bool with true by lia.
    pose proof R as (Rg & _). rewrite Rg.
    destruct (nth_error (s_globs s) (Z.to_nat i)) as [v|] eqn:N; [|exact I].
    rewrite nth_error_app1 by (apply nth_error_Some; congruence). rewrite N. apply IH; auto.
  - destruct ((0 <=? i)%Z && (i <? Z.of_nat (tb_nglob (p_tbl P)))%Z)%bool eqn:B; [|exact I].
    replace ((0 <=? i)%Z && (i <? Z.of_nat (tb_nglob (p_tbl P')))%Z)%bool with true by lia.
    destruct (Nat.ltb_spec (Z.to_nat i) (length (s_globs s))); [|exact I].
    destruct (Nat.ltb_spec (Z.to_nat i) (length (s_globs s'))) as [|X];
      [|destruct R as (Rg & _); rewrite Rg, app_length in X; lia].
    apply IH. apply set_globs_more; auto.
  - eapply rel_bind; [apply Hc; exact R|]. intros [v s1] [v' s1'] (E & R1). cbn in E, R1. subst v'. apply IH. exact R1.
Qed.

(** Functions by number *)
Definition no_label (f : Z) (l : nat * text * list (nkind * nat)) : bool :=
  match l with (_, _, [(NFun, i)]) => (Z.of_nat i =? f)%Z | _ => false end.
Lemma find_labelled (p : sym -> bool) q l : (forall y, q (label y) = p y) ->
  option_map label (find p l) = find q (map label l).
Proof. intros E. induction l as [|y l IH]; auto. cbn [map find]. rewrite E. destruct (p y); auto. Qed.

Lemma find_later (p : sym -> bool) q y : (forall y, q (label y) = p y) -> (forall y, p y = true -> undefined y = false) ->
  find p (tb_syms (p_tbl P)) = Some y -> exists y', find p (tb_syms (p_tbl P')) = Some y' /\ erase y' = erase y.
Proof.
  intros Q U E. pose proof (find_labelled p q (tb_syms (p_tbl P')) Q) as L.
  destruct (ex_labels _ _ Ex) as (ns & N). rewrite N, find_app, <- (find_labelled p q _ Q), E in L. cbn in L.
  destruct (find p (tb_syms (p_tbl P'))) as [y'|] eqn:X'; try discriminate. exists y'. split; auto.
  injection L as L1 L2 L3. apply find_some in E as (I & F). apply find_some in X' as (I' & F').
  destruct (ex_at _ _ Ex _ _ (in_sym_at _ _ (gd_unique _ _ Gd) I) (U _ F)) as (z & Z & R).
  rewrite <- L1, (in_sym_at _ _ Un I') in Z. congruence.
Qed.

Lemma function_later f y : function_no P f = Some y -> exists y', function_no P' f = Some y' /\ erase y' = erase y.
Proof.
  apply (find_later _ (no_label f)); intros [i n []]; cbn; auto; discriminate.
Qed.
Lemma reference_later f y : reference_function (p_tbl P) f = Some y ->
  exists y', reference_function (p_tbl P') f = Some y' /\ erase y' = erase y.
Proof.
  apply (find_later _ (fn_label f)); [apply fn_label_ok|]. intros [i n []]; cbn; auto; discriminate.
Qed.

Section Body.
Variables enter enter' : nat -> nat -> sym -> list value -> sst -> outcome (value * sst).
Hypothesis En : forall d h y y' args s s', erase y' = erase y -> more s s' -> vrel (enter d h y args s) (enter' d h y' args s').

Lemma back_rel d h f args s s' : more s s' -> vrel (call_back P enter d h f args s) (call_back P' enter' d h f args s').
Proof.
  intros R. unfold call_back. rewrite Ro. destruct (f <? 0)%Z; [exact I|]. destruct (_ <=? _); [|exact I].
  destruct (function_no P f) as [y|] eqn:Y; [|exact I]. destruct (function_later _ _ Y) as (y' & -> & E). apply En; auto.
Qed.

Lemma sym_rel d h y y' args s s' : erase y' = erase y -> more s s' ->
  vrel (Source.call_sym P enter d h y args s) (Source.call_sym P' enter' d h y' args s').
Proof.
  intros E R. unfold Source.call_sym. destruct y as [i n b], y' as [i' n' b']. pose proof E as E0. unfold erase in E0. cbn in E0 |- *.
  destruct b; try exact I; destruct b'; try discriminate.
  - apply En; auto.
  - injection E0 as -> -> -> -> -> -> ->. rewrite Ca. apply foreign_rel; auto. intros. apply back_rel; auto.
Qed.

Lemma id_rel d h id args s s' : more s s' -> vrel (Source.call_id P enter d h id args s) (Source.call_id P' enter' d h id args s').
Proof.
  intros R. unfold Source.call_id. destruct (sym_at (p_tbl P) id) as [y|] eqn:Y; [|exact I].
  destruct (undefined y) eqn:U.
  - destruct y as [i n []]; try discriminate. exact I.
  - destruct (sym_later _ _ Y U) as (y' & -> & E). apply sym_rel; auto.
Qed.

Lemma fields_later id fs : fields_of P id = Some fs -> fs <> [] -> fields_of P' id = Some fs.
Proof.
  unfold fields_of. intros E N. destruct (sym_at (p_tbl P) id) as [[yi yn []]|] eqn:Y; try discriminate. injection E as ->.
  destruct defined.
  - destruct (sym_later _ _ Y eq_refl) as ([yi' yn' b'] & -> & R). unfold erase in R. cbn in R.
    destruct b'; try discriminate. injection R as _ _ _ ->. reflexivity.
  - pose proof (good_at _ _ _ _ Gd Y) as (_ & B). rewrite (B eq_refl) in N. congruence.
Qed.

Lemma field_later g f k : field_number P g f = Some k -> field_number P' g f = Some k.
Proof.
  unfold field_number. destruct g as [| | | | | |id]; try discriminate. destruct (fields_of P id) as [fs|] eqn:F; try discriminate.
  destruct fs; try discriminate. rewrite (fields_later _ _ F); [auto|discriminate].
Qed.

Lemma named_init_map {A B} (g : A -> B) f names ms : named_init f names (map g ms) = option_map g (named_init f names ms).
Proof.
  revert ms. induction names as [|nm names IH]; intros [|m ms]; cbn; auto. destruct (text_eqb nm f); auto.
Qed.

Lemma inits_rel {A B} (Q : A -> B -> Prop) ms ms' : Forall2 Q ms ms' -> forall names fs,
  match ordered_inits fs names ms, ordered_inits fs names ms' with
  | Some l, Some l' => Forall2 Q l l'
  | None, None => True
  | _, _ => False
  end.
Proof.
  intros F names fs. unfold ordered_inits. destruct names as [|nm names].
  - assert (L : length ms = length ms') by (clear -F; induction F; cbn; auto). rewrite L. destruct (_ =? _); auto.
  - generalize (nm :: names). clear nm names. intros names. induction fs as [|f fs IH]; cbn [inits]; auto.
    assert (X : match named_init (fd_name f) names ms, named_init (fd_name f) names ms' with
      | Some l, Some l' => Q l l' | None, None => True | _, _ => False end).
    { clear -F. revert names. induction F as [|m m' ms ms' q F IH]; intros [|nm names]; cbn; auto.
      destruct (text_eqb nm _); auto. apply IH. }
    destruct (named_init _ names ms), (named_init _ names ms'); try contradiction; auto.
    destruct (inits fs names ms), (inits fs names ms'); try contradiction; auto.
Qed.

Lemma get_rel v k s s' : more s s' -> get_field v k s' = get_field v k s.
Proof. intros (_ & Rh & _). unfold get_field. rewrite Rh. reflexivity. Qed.
Lemma operate_rel o a b s s' : more s s' -> operate o a b s' = operate o a b s.
Proof. intros (_ & Rh & _). unfold operate. rewrite Rh. reflexivity. Qed.

Ltac pair_intro := let v := fresh "v" in let s := fresh "s" in let v' := fresh "w" in let s' := fresh "z" in
  let E := fresh "E" in let R := fresh "R" in
  intros [v s] [v' s'] (E & R); cbn [fst snd] in E, R; subst v'.
Ltac beq := let a := fresh "x" in let b := fresh "y" in intros a b <-.

Lemma evals_rel d fe es : Forall (fun e => forall h s s', more s s' -> vrel (eval P enter d fe e h s) (eval P' enter' d fe e h s')) es ->
  Forall2 (fun m m' : nat -> sst -> outcome (value * sst) => forall h s s', more s s' -> vrel (m h s) (m' h s'))
    (map (eval P enter d fe) es) (map (eval P' enter' d fe) es).
Proof. induction 1; cbn; constructor; auto. Qed.

Lemma eval_rel d fe e : forall h s s', more s s' -> vrel (eval P enter d fe e h s) (eval P' enter' d fe e h s').
Proof.
  induction e using texpr_ind'; intros hh st st' R; cbn [eval]; try (apply keep_rel; auto; fail).
  - eapply rel_bind; [apply const_rel|]. beq. apply keep_rel; auto.
  - eapply rel_bind; [apply read_rel; exact R|]. beq. apply keep_rel; auto.
  - eapply rel_bind; [apply eval_list_rel; [apply evals_rel; auto|exact R]|]. pair_intro.
    destruct (reference_function (p_tbl P) f) as [y|] eqn:Y; [|exact I]. destruct (reference_later _ _ Y) as (y' & -> & E).
    eapply rel_bind; [apply sym_rel; eauto|]. pair_intro. apply keep_rel; auto.
  - assert (G : vrel (' (a, s1) <- eval P enter d fe e1 hh st ;; if step_of_float o e2 a then UB
        else ' (b, s2) <- eval P enter d fe e2 (S hh) s1 ;; v <- operate o a b s2 ;; Ok (v, s2))%outcome
      (' (a, s1) <- eval P' enter' d fe e1 hh st' ;; if step_of_float o e2 a then UB
        else ' (b, s2) <- eval P' enter' d fe e2 (S hh) s1 ;; v <- operate o a b s2 ;; Ok (v, s2))%outcome).
    { eapply rel_bind; [apply IHe1; exact R|]. pair_intro. destruct (step_of_float _ _ _); [exact I|].
      eapply rel_bind; [apply IHe2; eauto|]. pair_intro. match goal with X : more ?a ?b |- context [operate _ _ _ ?b] => rewrite (operate_rel _ _ _ _ _ X) end.
      eapply rel_bind; [apply rel_eq|]. beq. apply rel_ret; auto. }
    destruct o; try exact G.
    + eapply rel_bind; [apply IHe1; exact R|]. pair_intro. eapply rel_bind; [apply rel_eq|]. beq.
      destruct x; [apply IHe2; auto|apply keep_rel; auto].
    + eapply rel_bind; [apply IHe1; exact R|]. pair_intro. eapply rel_bind; [apply rel_eq|]. beq.
      destruct x; [apply keep_rel; auto|apply IHe2; auto].
  - destruct o.
    + assert (G : vrel (' (v, s1) <- eval P enter d fe e hh st ;; ' (_, _) <- keep P (S hh) VNull s1 ;; x <- negate v ;; Ok (x, s1))%outcome
        (' (v, s1) <- eval P' enter' d fe e hh st' ;; ' (_, _) <- keep P' (S hh) VNull s1 ;; x <- negate v ;; Ok (x, s1))%outcome).
      { eapply rel_bind; [apply IHe; exact R|]. pair_intro. eapply rel_bind; [apply keep_rel; eauto|]. pair_intro.
        eapply rel_bind; [apply rel_eq|]. beq. apply rel_ret; auto. }
      destruct e; try exact G. apply keep_rel; auto.
    + eapply rel_bind; [apply IHe; exact R|]. pair_intro. eapply rel_bind; [apply rel_eq|]. beq. apply rel_ret; auto.
  - apply IHe; auto.
  - destruct (fields_of P t) as [fs|] eqn:F; [|exact I]. destruct fs as [|f fs].
    + unfold ordered_inits. destruct ns; [|exact I]. destruct args; exact I.
    + rewrite (fields_later _ _ F) by discriminate.
      pose proof (inits_rel _ _ _ (evals_rel d fe args H0) ns (f :: fs)) as X.
      destruct (ordered_inits (f :: fs) ns (map (eval P enter d fe) args)) as [ms|]; [|exact I].
      destruct (ordered_inits (f :: fs) ns (map (eval P' enter' d fe) args)) as [ms'|]; [|contradiction].
      eapply rel_bind; [apply eval_list_rel; [exact X|exact R]|]. pair_intro. destruct v as [|a v]; [exact I|].
      match goal with Z : more _ _ |- context [new_obj _ ?b] => destruct (new_obj_more _ _ b Z) as (E1 & E2) end.
      destruct (new_obj s _), (new_obj z _). cbn in E1, E2. subst. apply rel_ret; auto.
  - apply IHe; auto.
  - eapply rel_bind; [apply IHe; exact R|]. pair_intro.
    destruct (field_number P (tag_of e) f) as [k|] eqn:F; [|exact I]. rewrite (field_later _ _ _ F).
    match goal with X : more ?a ?b |- context [get_field _ _ ?b] => rewrite (get_rel _ _ _ _ X) end.
    eapply rel_bind; [apply rel_eq|]. beq. apply rel_ret; auto.
  - eapply rel_bind; [apply IHe1; exact R|]. pair_intro. eapply rel_bind; [apply IHe2; eauto|]. pair_intro.
    eapply rel_bind; [apply id_rel; eauto|]. pair_intro. apply keep_rel; auto.
  - eapply rel_bind; [apply IHe1; exact R|]. pair_intro. eapply rel_bind; [apply rel_eq|]. beq.
    destruct x; [apply IHe2|apply IHe3]; auto.
Qed.

Lemma assigned_rel d fe op l r h s s' : more s s' -> vrel (assigned P enter d fe op l r h s) (assigned P' enter' d fe op l r h s').
Proof.
  intros R. unfold assigned. destruct (assign_op op) as [o|]; [|apply eval_rel; auto].
  eapply rel_bind; [apply eval_rel; exact R|]. pair_intro. destruct (step_of_float _ _ _); [exact I|].
  eapply rel_bind; [apply eval_rel; eauto|]. pair_intro.
  match goal with X : more ?a ?b |- context [operate _ _ _ ?b] => rewrite (operate_rel _ _ _ _ _ X) end.
  eapply rel_bind; [apply rel_eq|]. beq. apply rel_ret; auto.
Qed.

Lemma put_rel o k v s s' : more s s' -> rel more (put_field o k v s) (put_field o k v s').
Proof.
  intros R. unfold put_field. destruct o; try exact I. pose proof R as (Rg & Rh & Rn & Rw). rewrite Rh.
  destruct (hget (s_heap s) id) as [[oi om []]|]; try exact I. destruct (k <? length fields); [|exact I].
  eexists. split; [reflexivity|]. unfold more, set_heap. cbn. auto.
Qed.

Lemma assign_rel d h fe op l r s s' : more s s' -> rel fmore (assign P enter d h fe op l r s) (assign P' enter' d h fe op l r s').
Proof.
  intros R. destruct l; cbn [assign]; try exact I.
  - eapply rel_bind; [apply assigned_rel; exact R|]. pair_intro. apply write_rel; auto.
  - eapply rel_bind; [apply assigned_rel; exact R|]. pair_intro. eapply rel_bind; [apply eval_rel; eauto|]. pair_intro.
    destruct (field_number P _ _) as [k|] eqn:F; [|exact I]. rewrite (field_later _ _ _ F).
    eapply rel_bind; [apply put_rel; eauto|]. intros a b Rab. eexists. split; [reflexivity|]. split; auto.
  - eapply rel_bind; [apply eval_rel; exact R|]. pair_intro. eapply rel_bind; [apply eval_rel; eauto|]. pair_intro.
    eapply rel_bind; [apply assigned_rel; eauto|]. pair_intro. destruct setf as [f|]; [|exact I].
    eapply rel_bind; [apply id_rel; eauto|]. pair_intro. eexists. split; [reflexivity|]. split; auto.
Qed.

Definition smore (a b : signal * fenv * sst) : Prop := fst a = fst b /\ more (snd a) (snd b).
Notation srel := (rel smore).
Ltac sig_intro := let v := fresh "v" in let f := fresh "f" in let s := fresh "s" in let v' := fresh "w" in let s' := fresh "z" in
  let E := fresh "E" in let R := fresh "R" in
  intros [[v f] s] [v' s'] (E & R); cbn [fst snd] in E, R; subst v'.

Lemma sig_ret x fe s s' : more s s' -> srel (Ok (x, fe, s)) (Ok (x, fe, s')).
Proof. intros R. eexists. split; [reflexivity|]. split; auto. Qed.

Lemma cond_rel d h c fe s s' : more s s' ->
  rel (fun a b => fst a = fst b /\ more (snd a) (snd b)) (eval_cond P enter d h c fe s) (eval_cond P' enter' d h c fe s').
Proof.
  intros R. unfold eval_cond. eapply rel_bind; [apply eval_rel; exact R|]. pair_intro.
  eapply rel_bind; [apply rel_eq|]. beq. eexists. split; [reflexivity|]. split; auto.
Qed.

Lemma while_rel n c c' b b' t t' :
  (forall fe s s', more s s' -> rel (fun a b => fst a = fst b /\ more (snd a) (snd b)) (c fe s) (c' fe s')) ->
  (forall fe s s', more s s' -> srel (b fe s) (b' fe s')) -> (forall fe s s', more s s' -> srel (t fe s) (t' fe s')) ->
  forall fe s s', more s s' -> srel (repeat_while n c b t fe s) (repeat_while n c' b' t' fe s').
Proof.
  intros Hc Hb Ht. induction n as [|n IH]; intros fe s s' R; cbn [repeat_while]; [reflexivity|].
  eapply rel_bind; [apply Hc; exact R|]. intros [x s1] [y s1'] (E & R1). cbn in E, R1. subst y. destruct x.
  - eapply rel_bind; [apply Hb; exact R1|]. sig_intro. destruct v; try (apply sig_ret; auto).
    + eapply rel_bind; [apply Ht; eauto|]. sig_intro. destruct v; try exact I; [apply IH; auto|apply sig_ret; auto].
    + eapply rel_bind; [apply Ht; eauto|]. sig_intro. destruct v; try exact I; [apply IH; auto|apply sig_ret; auto].
  - apply sig_ret; auto.
Qed.

Lemma seq_rel (ms ms' : list (fenv -> sst -> outcome (signal * fenv * sst))) :
  Forall2 (fun m m' => forall fe s s', more s s' -> srel (m fe s) (m' fe s')) ms ms' ->
  forall fe s s', more s s' -> srel (seq ms fe s) (seq ms' fe s').
Proof.
  induction 1 as [|m m' ms ms' Hm _ IH]; intros fe s s' R; cbn [seq]; [apply sig_ret; auto|].
  eapply rel_bind; [apply Hm; exact R|]. sig_intro. destruct v; try (apply sig_ret; auto; fail). apply IH; auto.
Qed.

Lemma exec_rel n infun d st : forall h fe s s', more s s' ->
  srel (Source.exec P enter n infun d h st fe s) (Source.exec P' enter' n infun d h st fe s').
Proof.
  induction st using tstmt_ind'; intros hh fe s1 s1' R; cbn [Source.exec]; try exact I; try (apply sig_ret; auto; fail).
  - eapply rel_bind; [apply eval_list_rel; [apply evals_rel; apply Forall_forall; intros; apply eval_rel; auto|exact R]|]. pair_intro.
    destruct (reference_function (p_tbl P) f) as [y|] eqn:Y; [|exact I]. destruct (reference_later _ _ Y) as (y' & -> & E).
    eapply rel_bind; [apply sym_rel; eauto|]. pair_intro. apply sig_ret; auto.
  - eapply rel_bind; [apply eval_rel; exact R|]. pair_intro. eapply rel_bind; [apply write_rel; eauto|]. pair_intro. apply sig_ret; auto.
  - eapply rel_bind; [apply assign_rel; exact R|]. pair_intro. apply sig_ret; auto.
  - apply seq_rel; auto. clear -H0. induction H0; cbn; constructor; auto.
  - eapply rel_bind; [apply cond_rel; exact R|]. pair_intro. destruct v; [apply IHst; auto|].
    destruct b as [b|]; [|apply sig_ret; auto]. auto.
  - apply while_rel; auto; intros; [apply cond_rel; auto|apply sig_ret; auto].
  - eapply rel_bind; [apply IHst1; exact R|]. sig_intro. destruct v; try exact I; [|apply sig_ret; auto].
    apply while_rel; auto. intros. apply cond_rel; auto.
  - destruct e as [e|]; destruct infun; try exact I; [|apply sig_ret; auto].
    eapply rel_bind; [apply eval_rel; exact R|]. pair_intro. apply sig_ret; auto.
Qed.
End Body.

Theorem enter_rel n : forall d h y y' args s s', erase y' = erase y -> more s s' ->
  vrel (enter_fn P n d h y args s) (enter_fn P' n d h y' args s').
Proof.
  induction n as [|n IH]; intros d h y y' args s s' E R; cbn [enter_fn]; [reflexivity|].
  destruct y as [i nm b], y' as [i' nm' b']. unfold erase in E. cbn in E. cbn [sy_body sy_id].
  destruct b; try exact I. destruct b' as [| |index' args' locals' ret'| | | | |]; try discriminate.
  injection E as -> -> -> Ea El ->. apply (f_equal (@length _)) in Ea, El. rewrite !map_length in Ea, El.
  destruct (p_body P i) as [body|] eqn:B; [|exact I]. rewrite (Bo _ _ B), Ea, El, De, Ro.
  destruct (length args =? length args0); [|exact I]. destruct (d <? p_depth P); [|exact I]. destruct (h + length locals <=? p_room P); [|exact I].
  eapply rel_bind; [apply exec_rel; [exact IH|exact R]|].
  intros [[v f] s1] [v' s1'] (E & R1). cbn [fst snd] in E, R1. subst v'. destruct v; try exact I; apply rel_ret; auto.
Qed.

Theorem call_back_rel n d h f args s s' : more s s' ->
  vrel (call_back P (enter_fn P n) d h f args s) (call_back P' (enter_fn P' n) d h f args s').
Proof. apply back_rel. apply enter_rel. Qed.
End Later.
