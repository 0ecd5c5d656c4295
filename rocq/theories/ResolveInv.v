(** * What type resolution keeps *)
From Coq Require Import Permutation.
From Verif Require Import Base Token Values Strings Syntax Symbols Code Parser Resolve Compile Layout CompileProofs
  TableInv ParserInv SimExpr.
Local Open Scope nat_scope.

Lemma kindm_same g t k t' : kindm g t = COk k t' -> t' = t.
Proof. unfold kindm. destruct (kind_of t g); try discriminate. intros [= _ <-]. auto. Qed.
Lemma check_same a b t u t' : check_assignable a b t = COk u t' -> t' = t.
Proof. unfold check_assignable. destruct (assignable _ _ _ _) as [[]|]; try discriminate. intros [= _ <-]. auto. Qed.
Lemma or_fail_ok {S A} (o : option A) (s : S) a s' : or_fail o s = COk a s' -> o = Some a /\ s' = s.
Proof. unfold or_fail. destruct o; try discriminate. intros [= -> <-]. auto. Qed.
Lemma or_ub_ok {S A} (o : option A) (s : S) a s' : or_ub o s = COk a s' -> o = Some a /\ s' = s.
Proof. unfold or_ub. destruct o; try discriminate. intros [= -> <-]. auto. Qed.
Lemma cget_ok {S} (s a s' : S) : cget s = COk a s' -> a = s /\ s' = s.
Proof. intros [= <- <-]. auto. Qed.
Lemma if_fail_ok {S} (b : bool) (s : S) u s' : (if b then cfail else cret tt) s = COk u s' -> b = false /\ s' = s.
Proof. destruct b; try discriminate. intros [= _ <-]. auto. Qed.

(** One step of a computation that succeeded *)
Ltac rstep E :=
  match type of E with
  | cbind cget _ _ = _ => let X := fresh "X" in apply cbind_ok in E as (? & ? & X & E); apply cget_ok in X as (-> & ->)
  | cbind (kindm _) _ _ = _ => let X := fresh "K" in apply cbind_ok in E as (? & ? & X & E); pose proof (kindm_same _ _ _ _ X); subst
  | cbind (check_assignable _ _) _ _ = _ => let X := fresh "K" in apply cbind_ok in E as (? & ? & X & E); pose proof (check_same _ _ _ _ _ X); subst
  | cbind (or_fail _) _ _ = _ => let X := fresh "O" in apply cbind_ok in E as (? & ? & X & E); apply or_fail_ok in X as (X & ->)
  | cbind (or_ub _) _ _ = _ => let X := fresh "O" in apply cbind_ok in E as (? & ? & X & E); apply or_ub_ok in X as (X & ->)
  | cret _ _ = _ => apply cret_ok in E as (-> & ->)
  | (if ?b then _ else _) _ = _ => let B := fresh "B" in destruct b eqn:B; try discriminate E
  | cfail _ = _ => discriminate E
  | cub _ = _ => discriminate E
  | cabort _ = _ => discriminate E
  end.

Definition rok (e : expr) : Prop := forall t e' t', resolve e t = COk e' t' -> t' = t /\ incl (erefs e') (urefs e).

Lemma incl_flat es es' : Forall2 (fun e e' => incl (erefs e') (urefs e)) es es' -> incl (flat_map erefs es') (flat_map urefs es).
Proof. induction 1; cbn; [apply incl_refl|]. apply incl_app; [apply incl_appl|apply incl_appr]; auto. Qed.

Lemma args_ok args : Forall rok args -> forall params va t es t', resolve_args resolve params va args t = COk es t' ->
  t' = t /\ Forall2 (fun e e' => incl (erefs e') (urefs e)) args es.
Proof.
  induction 1 as [|a args Ha _ IH]; intros params va t es t' E; cbn [resolve_args] in E.
  - rstep E. auto.
  - apply cbind_ok in E as (e & t1 & E1 & E). destruct (Ha _ _ _ E1) as (-> & I1).
    destruct params as [|p params].
    + rstep E. apply cbind_ok in E as (es' & t2 & E2 & E). destruct (IH _ _ _ _ _ E2) as (-> & I2). rstep E. auto.
    + repeat rstep E. apply cbind_ok in E as (es' & t2 & E2 & E). destruct (IH _ _ _ _ _ E2) as (-> & I2). rstep E. auto.
Qed.

Lemma inits_ok id args : Forall rok args -> forall nmd names i t es t', resolve_inits resolve id nmd names i args t = COk es t' ->
  t' = t /\ Forall2 (fun e e' => incl (erefs e') (urefs e)) args es.
Proof.
  induction 1 as [|a args Ha _ IH]; intros nmd names i t es t' E; cbn [resolve_inits] in E.
  - rstep E. auto.
  - apply cbind_ok in E as (e & t1 & E1 & E). destruct (Ha _ _ _ E1) as (-> & I1). rstep E.
    destruct (sym_at t id) as [[? ? []]|]; try discriminate. repeat rstep E.
    apply cbind_ok in E as (u & t2 & E2 & E).
    assert (t2 = t) as ->.
    { destruct nmd.
      - destruct names as [|nm ?]; try discriminate. destruct (field_index fields nm) as [[? ?]|]; try discriminate.
        eapply check_same; eauto.
      - destruct (nth_error fields i); try discriminate. eapply check_same; eauto. }
    apply cbind_ok in E as (es' & t3 & E3 & E). destruct (IH _ _ _ _ _ _ E3) as (-> & I2). rstep E. auto.
Qed.

Lemma resolve_inv e : rok e.
Proof.
  induction e using expr_ind'; intros T e' T' E; cbn [resolve] in E; try (rstep E; split; [auto|apply incl_nil_l]; fail).
  - destruct r as [r|]; try discriminate. repeat rstep E. split; auto. apply incl_refl.
  - rstep E. destruct (reference_function T f); try discriminate. rstep E. destruct x as [[params va] ret].
    apply cbind_ok in E as (es & t1 & E1 & E). destruct (args_ok _ H _ _ _ _ _ E1) as (-> & I1). repeat rstep E. split; auto.
    apply incl_flat. exact I1.
  - apply cbind_ok in E as (l' & t1 & E1 & E). destruct (IHe1 _ _ _ E1) as (-> & I1).
    apply cbind_ok in E as (r' & t2 & E2 & E). destruct (IHe2 _ _ _ E2) as (-> & I2). repeat rstep E. split; auto.
    cbn. apply incl_app; [apply incl_appl|apply incl_appr]; auto.
  - apply cbind_ok in E as (l' & t1 & E1 & E). destruct (IHe _ _ _ E1) as (-> & I1). repeat rstep E. split; auto.
  - apply cbind_ok in E as (l' & t1 & E1 & E). destruct (IHe _ _ _ E1) as (-> & I1). repeat rstep E. split; auto.
  - rstep E. destruct (sym_at T t) as [[? ? [| | | |[] | | | ]]|]; try discriminate.
    apply cbind_ok in E as (es & t1 & E1 & E). destruct (inits_ok _ _ H _ _ _ _ _ _ E1) as (-> & I1). rstep E. split; auto.
    apply incl_flat. exact I1.
  - apply cbind_ok in E as (l' & t1 & E1 & E). destruct (IHe _ _ _ E1) as (-> & I1). repeat rstep E. split; auto.
  - apply cbind_ok in E as (l' & t1 & E1 & E). destruct (IHe _ _ _ E1) as (-> & I1). rstep E.
    destruct x; try discriminate. destruct (tag_of l'); try discriminate. rstep E.
    destruct (sym_at T id) as [[? ? []]|]; try discriminate. rstep E. destruct x. rstep E. split; auto.
  - apply cbind_ok in E as (l' & t1 & E1 & E). destruct (IHe1 _ _ _ E1) as (-> & I1).
    apply cbind_ok in E as (r' & t2 & E2 & E). destruct (IHe2 _ _ _ E2) as (-> & I2). repeat rstep E.
    destruct (reference_function _ _); try discriminate. rstep E. destruct x0 as [[? ?] ?]. repeat rstep E. split; auto.
    cbn. apply incl_app; [apply incl_appl|apply incl_appr]; auto.
  - apply cbind_ok in E as (l' & t1 & E1 & E). destruct (IHe1 _ _ _ E1) as (-> & I1). rstep E.
    destruct (same_kind x KBoolT); try discriminate.
    apply cbind_ok in E as (r' & t2 & E2 & E). destruct (IHe2 _ _ _ E2) as (-> & I2).
    apply cbind_ok in E as (q' & t3 & E3 & E). destruct (IHe3 _ _ _ E3) as (-> & I3).
    destruct (tag_eq_dec _ _); try discriminate. rstep E. split; auto.
    cbn. apply incl_app; [apply incl_appl; auto|apply incl_appr, incl_app; [apply incl_appl|apply incl_appr]; auto].
Qed.

(** ** Statements *)
Lemma set_var_tag_shape r g t u t' : unique t -> set_var_tag r g t = COk u t' ->
  same_shape t t' /\ tb_func t' = tb_func t /\ tb_strings t' = tb_strings t.
Proof.
  intros U E. unfold set_var_tag in E. destruct r as [id|id|f i|f i]; try discriminate.
  - destruct (sym_at t id) as [y|] eqn:Y; try discriminate. destruct y as [yi yn []]; try discriminate.
    injection E as _ <-. split; [eapply put_body_shape; [exact U|exact Y|reflexivity]|auto].
  - destruct (put_var t (RLocal f i) (lv_set_tag g)) eqn:V; try discriminate. injection E as _ <-.
    split; [eapply put_var_shape; [exact U| |exact V]; reflexivity|].
    cbn in V. destruct (sym_at t f) as [[? ? []]|]; try discriminate. destruct (nth_error locals i); try discriminate.
    injection V as <-. auto.
  - destruct (put_var t (RArg f i) (lv_set_tag g)) eqn:V; try discriminate. injection E as _ <-.
    split; [eapply put_var_shape; [exact U| |exact V]; reflexivity|].
    cbn in V. destruct (sym_at t f) as [[? ? []]|]; try discriminate. destruct (nth_error args i); try discriminate.
    injection V as <-. auto.
Qed.

Definition kept (t t' : tbl) : Prop :=
  unique t -> same_shape t t' /\ tb_func t' = tb_func t /\ tb_strings t' = tb_strings t.
Lemma kept_refl t : kept t t.
Proof. intros _. split; [apply shape_refl|auto]. Qed.
Lemma kept_trans a b c : kept a b -> kept b c -> kept a c.
Proof.
  intros A B U. destruct (A U) as (S & F & G). destruct (B (shape_unique _ _ S U)) as (S' & F' & G').
  split; [eapply shape_trans; eauto|]. split; congruence.
Qed.

(** [b']: the same functions, with bodies that mention no more *)
Definition same_bodies (l : list (nat * stmt)) (l' : list (nat * tstmt)) : Prop :=
  Permutation (map fst l) (map fst l') /\
  forall f b', In (f, b') l' -> exists b, In (f, b) l /\ incl (srefs b') (usrefs b).
Lemma sb_nil : same_bodies [] [].
Proof. split; [constructor|]. intros f b' []. Qed.
Lemma sb_app a b a' b' : same_bodies a a' -> same_bodies b b' -> same_bodies (a ++ b) (a' ++ b').
Proof.
  intros (P1 & I1) (P2 & I2). split; [rewrite !map_app; apply Permutation_app; auto|].
  intros f x I. apply in_app_iff in I as [I|I].
  - destruct (I1 _ _ I) as (y & ? & ?). exists y. rewrite in_app_iff. auto.
  - destruct (I2 _ _ I) as (y & ? & ?). exists y. rewrite in_app_iff. auto.
Qed.

Definition sres (s : stmt) : Prop := forall t s' t', resolve_stmt s t = COk s' t' ->
  kept t t' /\ incl (srefs s') (usrefs s) /\ same_bodies (ubodies s) (bodies s').

Lemma check_bool_same c t u t' : check_bool c t = COk u t' -> t' = t.
Proof. unfold check_bool. intros E. rstep E. destruct (same_kind x KBoolT); rstep E; auto. Qed.

Definition resolve_list := (fix go (ss : list stmt) : tbl -> cres tbl (list tstmt) :=
               match ss with
               | [] => cret []
               | s :: ss' => cbind (resolve_stmt s) (fun t => cbind (go ss') (fun ts => cret (t :: ts)))
               end).
Lemma resolve_all_list ss : resolve_all ss = resolve_list ss.
Proof. induction ss as [|s ss IH]; cbn; [reflexivity|]. rewrite ?IH. reflexivity. Qed.

Lemma list_ok ss : Forall sres ss -> forall t ts t', resolve_list ss t = COk ts t' ->
  kept t t' /\ incl (flat_map srefs ts) (flat_map usrefs ss) /\ same_bodies (flat_map ubodies ss) (flat_map bodies ts).
Proof.
  induction 1 as [|s ss Hs _ IH]; intros t ts t' E; cbn [resolve_list] in E.
  - rstep E. split; [apply kept_refl|]. split; [apply incl_refl|apply sb_nil].
  - apply cbind_ok in E as (s' & t1 & E1 & E). destruct (Hs _ _ _ E1) as (K1 & I1 & B1).
    apply cbind_ok in E as (ts' & t2 & E2 & E). destruct (IH _ _ _ E2) as (K2 & I2 & B2). rstep E.
    split; [eapply kept_trans; eauto|]. split; [|apply sb_app; auto].
    cbn. apply incl_app; [apply incl_appl|apply incl_appr]; auto.
Qed.

Lemma stmt_inv s : sres s.
Proof.
  induction s using stmt_ind'; intros t s' t' E; cbn [resolve_stmt] in E.
  - apply cbind_ok in E as (e & t1 & E1 & E). destruct (resolve_inv _ _ _ _ E1) as (-> & I1).
    destruct e; try discriminate. rstep E. split; [apply kept_refl|]. split; [exact I1|apply sb_nil].
  - destruct (tok_eqb o DECLARE).
    + destruct l; try discriminate. destruct r0 as [v|]; try discriminate.
      apply cbind_ok in E as (e & t1 & E1 & E). destruct (resolve_inv _ _ _ _ E1) as (-> & I1). rstep E.
      apply cbind_ok in E as (u & t2 & E2 & E). apply if_fail_ok in E2 as (_ & ->).
      apply cbind_ok in E as (u2 & t3 & E3 & E). rstep E. split; [intros U; eapply set_var_tag_shape; eauto|].
      split; [|apply sb_nil]. cbn. intros y [->|I]; [left; auto|right; auto].
    + destruct (is_assign o).
      * apply cbind_ok in E as (e & t1 & E1 & E). destruct (resolve_inv _ _ _ _ E1) as (-> & I1).
        apply cbind_ok in E as (e2 & t2 & E2 & E). destruct (resolve_inv _ _ _ _ E2) as (-> & I2). repeat rstep E.
        split; [apply kept_refl|]. split; [|apply sb_nil]. cbn. apply incl_app; [apply incl_appl|apply incl_appr]; auto.
      * apply cbind_ok in E as (e & t1 & E1 & E). destruct (resolve_inv _ _ _ _ E1) as (-> & I1). rstep E.
        split; [apply kept_refl|]. destruct (tok_eqb o DECLARECONST); (split; [apply incl_nil_l|apply sb_nil]).
  - apply cbind_ok in E as (ts & t1 & E1 & E). rstep E. exact (list_ok _ H _ _ _ E1).
  - rstep E. apply cbind_ok in E as (u & t1 & E1 & E). injection E1 as _ <-.
    apply cbind_ok in E as (b & t2 & E2 & E). destruct (IHs _ _ _ E2) as (K1 & I1 & B1).
    apply cbind_ok in E as (u3 & t3 & E3 & E). injection E3 as _ <-. rstep E. split.
    + intros U. destruct (K1 U) as ((S1 & S2 & S3 & S4 & S5 & S6) & F1 & G1). split; [repeat split; auto|]. split; [reflexivity|exact G1].
    + split; [apply incl_nil_l|]. cbn. destruct B1 as (P1 & I2). split; [cbn; constructor; auto|].
      intros g b' [[= <- <-]|I]; [exists s; split; [left|]; auto|].
      destruct (I2 _ _ I) as (y & ? & ?). exists y. split; [right|]; auto.
  - apply cbind_ok in E as (e & t1 & E1 & E). destruct (resolve_inv _ _ _ _ E1) as (-> & I1).
    apply cbind_ok in E as (u & t2 & E2 & E). apply check_bool_same in E2. subst t2.
    apply cbind_ok in E as (a' & t3 & E3 & E). destruct (IHs _ _ _ E3) as (K3 & I3 & B3).
    apply cbind_ok in E as (b' & t4 & E4 & E). rstep E. destruct b as [b|].
    + apply cbind_ok in E4 as (x & t5 & E5 & E4). rstep E4. destruct (H _ eq_refl _ _ _ E5) as (K5 & I5 & B5).
      split; [eapply kept_trans; eauto|]. split; [|cbn; apply sb_app; auto].
      cbn. apply incl_app; [apply incl_appl; auto|apply incl_appr, incl_app; [apply incl_appl|apply incl_appr]; auto].
    + rstep E4. split; auto. split; auto. cbn. apply incl_app; [apply incl_appl|apply incl_appr]; auto.
  - apply cbind_ok in E as (e & t1 & E1 & E). destruct (resolve_inv _ _ _ _ E1) as (-> & I1).
    apply cbind_ok in E as (u & t2 & E2 & E). apply check_bool_same in E2. subst t2.
    apply cbind_ok in E as (a' & t3 & E3 & E). destruct (IHs _ _ _ E3) as (K3 & I3 & B3). rstep E.
    split; auto. split; auto. cbn. apply incl_app; [apply incl_appl|apply incl_appr]; auto.
  - apply cbind_ok in E as (i' & t0 & E0 & E). destruct (IHs1 _ _ _ E0) as (K0 & I0 & B0).
    apply cbind_ok in E as (e & t1 & E1 & E). destruct (resolve_inv _ _ _ _ E1) as (-> & I1).
    apply cbind_ok in E as (u & t2 & E2 & E). apply check_bool_same in E2. subst t2.
    apply cbind_ok in E as (a' & t3 & E3 & E). destruct (IHs2 _ _ _ E3) as (K3 & I3 & B3).
    apply cbind_ok in E as (b' & t4 & E4 & E). destruct (IHs3 _ _ _ E4) as (K4 & I4 & B4). rstep E.
    split; [eauto using kept_trans|]. split.
    + cbn. apply incl_app; [apply incl_appl; auto|]. apply incl_appr, incl_app; [apply incl_appl; auto|].
      apply incl_appr, incl_app; [apply incl_appl|apply incl_appr]; auto.
    + cbn [ubodies bodies]. apply sb_app; auto. destruct (sb_app _ _ _ _ B3 B4) as (P & I). split.
      * rewrite P, !map_app. apply Permutation_app_comm.
      * intros f x Hx. apply I. rewrite in_app_iff in *. tauto.
  - apply cbind_ok in E as (g & t1 & E1 & E).
    assert (t1 = t) as ->.
    { unfold ret_tag in E1. destruct (tb_func t); try discriminate.
      destruct (sym_at t _) as [[? ? [| |? ? ? []| | | | | ]]|]; try discriminate. injection E1 as _ <-. auto. }
    destruct e as [e|].
    + apply cbind_ok in E as (e' & t2 & E2 & E). destruct (resolve_inv _ _ _ _ E2) as (-> & I1). repeat rstep E.
      split; [apply kept_refl|]. split; [exact I1|apply sb_nil].
    + rstep E. destruct (same_kind x KVoid); rstep E. split; [apply kept_refl|]. split; [apply incl_nil_l|apply sb_nil].
  - rstep E. split; [apply kept_refl|]. split; [apply incl_nil_l|apply sb_nil].
  - rstep E. split; [apply kept_refl|]. split; [apply incl_nil_l|apply sb_nil].
  - rstep E. split; [apply kept_refl|]. split; [apply incl_nil_l|apply sb_nil].
Qed.

Theorem resolve_all_inv ss t ts t' : resolve_all ss t = COk ts t' ->
  kept t t' /\ incl (flat_map srefs ts) (flat_map usrefs ss) /\ same_bodies (flat_map ubodies ss) (flat_map bodies ts).
Proof.
  rewrite resolve_all_list. apply list_ok. apply Forall_forall. intros s _. apply stmt_inv.
Qed.
