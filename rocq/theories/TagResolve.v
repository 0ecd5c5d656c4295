(** * What the type checker lets through is well typed, and stays so *)
From Coq Require Import Permutation.
From Verif Require Import Base Token Values Strings Syntax Symbols Code Parser Resolve Compile Layout LayoutProofs CompileProofs
  TableInv ParserInv SimExpr ResolveInv LayTable Whole HeightSpec HeightProofs TypeSpec TypeCode TagTable TagParse.
Local Open Scope nat_scope.

Lemma ref_vtag t r g : ref_tag t r = Some g <-> vtag t r = Some (Some g).
Proof.
  unfold ref_tag, vtag. destruct r as [id|id|f i|f i]; cbn [ref_sym var_of vt].
  - destruct (sym_at t id) as [[? ? []]|]; cbn; split; congruence.
  - destruct (sym_at t id) as [[? ? []]|]; cbn; try (split; congruence). destruct c; cbn; split; congruence.
  - destruct (sym_at t f) as [[? ? []]|]; cbn; try (split; congruence). destruct (nth_error locals i); cbn; split; congruence.
  - destruct (sym_at t f) as [[? ? []]|]; cbn; try (split; congruence). destruct (nth_error args i); cbn; split; congruence.
Qed.

Section More.
Variables t t' : tbl.
Hypothesis G : good full t.
Hypothesis Ti : tidy t.
Hypothesis U' : unique t'.
Hypothesis Ex : extends t t'.
Hypothesis Ki : kinds t t'.
Hypothesis Vm : forall r g, vtag t r = Some (Some g) -> vtag t' r = Some (Some g).

Definition grown (k k' : tkind) : Prop := k' = k \/ (k = KStruct /\ k' = KForeign).
Lemma kind_more g k : kind_of t g = Some k -> exists k', kind_of t' g = Some k' /\ grown k k'.
Proof.
  unfold grown. destruct g; cbn; try (intros [= <-]; eauto; fail).
  destruct (sym_at t id) as [[i n b]|] eqn:Y; try discriminate. destruct (Ki _ _ Y) as ([i' n' b'] & Y' & N & K). rewrite Y'. cbn in *.
  destruct b; try discriminate; intros [= <-].
  - destruct b'; try contradiction; eauto.
  - rewrite K. eauto.
  - destruct (ex_at _ _ Ex _ _ Y eq_refl) as (z & Z & R). rewrite Y' in Z. injection Z as <-. unfold erase in R. cbn in R.
    injection R as _ _ R. destruct b'; try discriminate. cbn in R. injection R as ->. eauto.
Qed.
Lemma name_more g x : tag_name t g = Some x -> tag_name t' g = Some x.
Proof.
  destruct g; cbn; auto. destruct (sym_at t id) as [y|] eqn:Y; try discriminate. destruct (Ki _ _ Y) as (y' & -> & N & _). cbn. congruence.
Qed.
Lemma assign_self n g k x : kind_of t' g = Some k -> k = KStruct \/ k = KForeign -> tag_name t' g = Some x -> assignable (S n) t' g g = Some true.
Proof. intros K D N. cbn [assignable]. rewrite K, N. destruct D as [->| ->]; cbn; rewrite text_eqb_refl'; reflexivity. Qed.

Lemma assign_more : forall n g g', assignable n t g g' = Some true -> assignable n t' g g' = Some true.
Proof.
  induction n as [|n IH]; intros g g' A; [discriminate|].
  assert (S2 : forall i i' n1 n2, kind_of t (GSym i) = Some KStruct -> kind_of t (GSym i') = Some KStruct -> tag_name t (GSym i) = Some n1 ->
    tag_name t (GSym i') = Some n2 -> n1 = n2 -> i = i').
  { cbn. intros i i' n1 n2 K1 K2 N1 N2 En. destruct (sym_at t i) as [[a b []]|] eqn:Y; try discriminate. destruct (sym_at t i') as [[a' b' []]|] eqn:Y'; try discriminate.
    cbn in N1, N2. apply sym_at_in in Y as (I1 & E1). apply sym_at_in in Y' as (I2 & E2). cbn in E1, E2. subst a a'.
    apply (td_structs _ Ti _ _ _ _ _ _ I1 I2 eq_refl eq_refl). cbn. congruence. }
  cbn [assignable] in A. destruct (kind_of t g) as [ks|] eqn:Kg; [|discriminate]. destruct (kind_of t g') as [kd|] eqn:Kd; [|destruct ks; discriminate].
  destruct (kind_more _ _ Kg) as (ks' & Kg' & Gs). destruct (kind_more _ _ Kd) as (kd' & Kd' & Gd).
  assert (Q : ks = KStruct -> kd = KStruct -> assignable (S n) t' g g' = Some true).
  { intros -> ->. cbn [same_kind] in A. destruct (tag_name t g) as [n1|] eqn:N1; [|discriminate]. destruct (tag_name t g') as [n2|] eqn:N2; [|discriminate].
    injection A as A. apply text_eqb_eq in A. destruct g, g'; cbn in Kg, Kd; try discriminate. assert (id = id0) as <- by (eapply S2; eauto).
    eapply assign_self; [exact Kg'| |exact (name_more _ _ N1)]. destruct Gs as [->|(_ & ->)]; auto. }
  cbn [assignable] in *. rewrite Kg', Kd' in *.
  destruct Gs as [->|(-> & ->)], Gd as [->|(-> & ->)]; auto.
  - destruct ks; try discriminate; destruct kd; auto; try (destruct (tag_name t g) as [n1|] eqn:N1; [|discriminate]; destruct (tag_name t g') as [n2|] eqn:N2; [|discriminate];
      rewrite (name_more _ _ N1), (name_more _ _ N2); exact A).
  - destruct ks; auto; discriminate.
  - destruct kd; auto; try discriminate.
Qed.
Lemma assign_ok_more g g' : assign_ok t g g' -> assign_ok t' g g'.
Proof. intros (n & A). exists n. apply assign_more. exact A. Qed.

Lemma sig_more y y' params va ret : In y (tb_syms t) -> sym_at t (sy_id y) = Some y -> sym_at t' (sy_id y) = Some y' -> erase y' = erase y ->
  sig_of (sy_body y) = Some (params, va, ret) ->
  exists params', sig_of (sy_body y') = Some (params', va, ret) /\ length params' = length params /\
    forall i g, nth_error params i = Some (Some g) -> nth_error params' i = Some (Some g).
Proof.
  intros I Y Y' E Sg. destruct y as [f nm b], y' as [f' nm' b']. unfold erase in E. cbn [sy_id sy_name sy_body] in *. injection E as -> -> E.
  destruct b; try discriminate; destruct b'; try discriminate.
  - cbn in E, Sg |- *. injection E as -> E1 E2 ->. injection Sg as <- <- <-. eexists. split; [reflexivity|].
    assert (Ln : length args0 = length args) by (rewrite <- (map_length erase_var args0), E1, map_length; reflexivity).
    rewrite !map_length. split; auto. intros i g N. specialize (Vm (RArg f i) g). unfold vtag in Vm. cbn [ref_sym] in Vm. rewrite Y, Y' in Vm. cbn in Vm.
    rewrite nth_error_map in N |- *. rewrite N in Vm. specialize (Vm eq_refl). destruct (nth_error args0 i); cbn in *; congruence.
  - cbn in E, Sg |- *. injection E as -> -> -> -> ->. injection Sg as <- <- <-. eauto.
Qed.
Lemma fit_some_more params params' va : length params' = length params -> (forall i g, nth_error params i = Some (Some g) -> nth_error params' i = Some (Some g)) ->
  forall gs, fit_some t params va gs -> fit_some t' params' va gs.
Proof.
  revert params'. induction params as [|p params IH]; intros params' Ln N gs F; destruct params' as [|p' params']; try discriminate.
  - destruct gs; auto.
  - destruct gs as [|g gs]; auto. destruct F as ((q & -> & A) & F). split.
    + exists q. split; [|apply assign_ok_more; auto]. specialize (N 0 q eq_refl). cbn in N. congruence.
    + apply IH; auto. intros i h Hn. exact (N (S i) h Hn).
Qed.
Lemma wt_call_more f gs g : wt_call t f gs g -> wt_call t' f gs g.
Proof.
  intros (y & params & va & R & Sg & F). destruct (reffun_ext _ _ G Ex U' _ _ R) as (y' & R' & E).
  pose proof R as R0. apply find_some in R0 as (I & _). pose proof R' as R1. apply find_some in R1 as (I' & _).
  assert (Id : sy_id y' = sy_id y) by (unfold erase in E; congruence).
  destruct (sig_more y y' params va (Some g) I (in_sym_at _ _ (gd_unique _ _ G) I) ltac:(rewrite <- Id; apply in_sym_at; auto) E Sg) as (ps & Sg' & Ln & N).
  exists y', ps, va. split; auto. split; auto. eapply fit_some_more; eauto.
Qed.
Lemma wt_new_more id names gs : wt_new t id names gs -> wt_new t' id names gs.
Proof.
  intros (fs & Sf & X). exists fs. split; [eapply sfields_ext; eauto|]. destruct names.
  - intros i f g N1 N2. apply assign_ok_more. eauto.
  - intros i nm g N1 N2. destruct (X _ _ _ N1 N2) as (k & g' & Fi & A). exists k, g'. split; auto. apply assign_ok_more; auto.
Qed.
Lemma bin_tag_grown o a b a' b' g : bin_tag o a b = Some g -> grown a a' -> grown b b' -> bin_tag o a' b' = Some g.
Proof.
  unfold grown. intros B [->|(-> & ->)] [->|(-> & ->)]; auto; destruct o; cbn in *; try discriminate;
    try (destruct a; discriminate); try (destruct b; discriminate); try (destruct (numeric a); discriminate);
    try (destruct a; auto; discriminate); try (destruct b; auto; discriminate).
Qed.
Lemma un_tag_grown o a a' g : un_tag o a = Some g -> grown a a' -> un_tag o a' = Some g.
Proof. unfold grown. intros B [->|(-> & ->)]; auto; destruct o; discriminate. Qed.
Lemma grown_bool k : grown KBoolT k -> k = KBoolT.
Proof. intros [->|(? & _)]; auto; discriminate. Qed.

Lemma wt_e_more e : wt_e t e -> wt_e t' e.
Proof.
  induction e using texpr_ind'; cbn [wt_e]; auto.
  - rewrite !ref_vtag. apply Vm.
  - intros (A & C). split; [|apply wt_call_more; auto]. rewrite all_forall in *. rewrite Forall_forall in *. auto.
  - intros (A & B & kl & kr & K1 & K2 & Bt). split; auto. split; auto.
    destruct (kind_more _ _ K1) as (kl' & K1' & G1). destruct (kind_more _ _ K2) as (kr' & K2' & G2).
    exists kl', kr'. split; auto. split; auto. eapply bin_tag_grown; eauto.
  - intros (A & k & K & Un). split; auto. destruct (kind_more _ _ K) as (k' & K' & G1). exists k'. split; auto. eapply un_tag_grown; eauto.
  - intros (A & C). split; [|apply wt_new_more; auto]. rewrite all_forall in *. rewrite Forall_forall in *. auto.
  - intros (A & id & fs & k & E & Sf & Fi). split; auto. exists id, fs, k. split; auto. split; auto. eapply sfields_ext; eauto.
  - intros (A & B & y & ps & va & Y & Sg). split; auto. split; auto.
    assert (Un : undefined y = false) by (destruct y as [? ? []]; auto; discriminate).
    destruct (ex_at _ _ Ex _ _ Y Un) as (y' & Y' & E). pose proof (sym_at_in _ _ _ Y) as (I & Id). subst.
    destruct (sig_more y y' ps va _ I Y Y' E Sg) as (ps' & Sg' & _). eauto.
  - intros (A & B & C & K & E1 & E2). split; auto. split; auto. split; auto. split; auto.
    destruct (kind_more _ _ K) as (k' & K' & G1). apply grown_bool in G1. subst. auto.
Qed.
Lemma wt_bool_more e : wt_bool t e -> wt_bool t' e.
Proof. intros (A & K). split; [apply wt_e_more; auto|]. destruct (kind_more _ _ K) as (k' & K' & G1). apply grown_bool in G1. subst. auto. Qed.
Lemma ret_more cur g : ret_of t cur = Some g -> ret_of t' cur = Some g.
Proof.
  unfold ret_of. destruct cur as [f|]; auto. destruct (sym_at t f) as [[i n []]|] eqn:Y; try discriminate.
  destruct (ex_at _ _ Ex _ _ Y eq_refl) as ([? ? []] & Y' & R); unfold erase in R; cbn in R; try discriminate. rewrite Y'. congruence.
Qed.
Lemma wt_s_more s : forall cur, wt_s t cur s -> wt_s t' cur s.
Proof.
  induction s using tstmt_ind'; intros cur; cbn [wt_s]; auto.
  - intros (A & g & C). split; [|exists g; apply wt_call_more; auto]. rewrite all_forall in *. rewrite Forall_forall in *. intros; apply wt_e_more; auto.
  - rewrite !ref_vtag. intros (A & V). split; [apply wt_e_more; auto|]. apply Vm; auto.
  - intros (A & B & C). split; [apply wt_e_more; auto|]. split; [apply wt_e_more; auto|]. apply assign_ok_more; auto.
  - rewrite !all_forall. intros A. rewrite Forall_forall in *. auto.
  - intros (A & B & C). split; [apply wt_bool_more; auto|]. split; auto. destruct b; auto.
  - intros (A & B). split; [apply wt_bool_more; auto|]. auto.
  - intros (A & B & C & D). split; auto. split; [apply wt_bool_more; auto|]. auto.
  - destruct e; auto. intros (A & g & R & As). split; [apply wt_e_more; auto|]. exists g. split; [apply ret_more; auto|apply assign_ok_more; auto].
Qed.
End More.

(** ** Tables of one shape *)
Lemma in_shape t t' y' : same_shape t t' -> In y' (tb_syms t') -> exists y, In y (tb_syms t) /\ erase y = erase y'.
Proof. intros (E & _) I. apply (in_map erase) in I. rewrite <- E in I. apply in_map_iff in I as (y & Ey & I). eauto. Qed.
Lemma erase_struct y y' d fs : erase y = erase y' -> sy_body y' = SyStruct d fs -> sy_body y = SyStruct d fs /\ sy_name y = sy_name y' /\ sy_id y = sy_id y'.
Proof.
  destruct y as [i n b], y' as [i' n' b']. unfold erase. cbn. intros [= -> -> E] ->. cbn in E. split; auto. destruct b; cbn in E; try discriminate; auto.
Qed.
Lemma shape_tidy t t' : same_shape t t' -> tidy t -> tidy t'.
Proof.
  intros Sh [T1 T2 T3 T4]. constructor.
  - eapply shape_unique; eauto.
  - apply Forall_forall. intros y' I. destruct (in_shape _ _ _ Sh I) as (y & Iy & E). pose proof (proj1 (Forall_forall _ _) T2 _ Iy) as L. cbn in L.
    destruct Sh as (_ & _ & _ & _ & Nx & _). rewrite <- Nx. unfold erase in E. assert (E1 : sy_id y = sy_id y') by congruence. lia.
  - intros y y' d d' fs fs' I I' B B' N. destruct (in_shape _ _ _ Sh I) as (z & Iz & E). destruct (in_shape _ _ _ Sh I') as (z' & Iz' & E').
    destruct (erase_struct _ _ _ _ E B) as (C & N1 & D). destruct (erase_struct _ _ _ _ E' B') as (C' & N1' & D'). rewrite <- D, <- D'. eapply T3; eauto. congruence.
  - intros y d fs I B. destruct (in_shape _ _ _ Sh I) as (z & Iz & E). destruct (erase_struct _ _ _ _ E B) as (C & _). eauto.
Qed.
Lemma shape_kinds t t' : same_shape t t' -> kinds t t'.
Proof.
  intros Sh id y Y. pose proof (shape_sym_at _ _ id Sh) as X. rewrite Y in X. destruct (sym_at t' id) as [y'|]; try discriminate. exists y'. split; auto.
  cbn in X. destruct y as [i n b], y' as [i' n' b']. unfold erase in X. cbn in X. injection X as -> -> E. split; auto. cbn.
  destruct b; cbn; auto; destruct b'; try discriminate; auto.
Qed.

(** ** Expressions *)
Section Resolve.
Variable t : tbl.
Hypothesis G : good full t.
Definition wok (e : expr) : Prop := forall e' t', resolve e t = COk e' t' -> wt_e t e'.
Lemma check_ok a b u t' : check_assignable a b t = COk u t' -> assign_ok t a b.
Proof. unfold check_assignable. destruct (assignable _ _ _ _) as [[]|] eqn:E; try discriminate. intros _. eexists. exact E. Qed.
Lemma kindm_ok g k t' : kindm g t = COk k t' -> kind_of t g = Some k.
Proof. unfold kindm. destruct (kind_of t g); congruence. Qed.
Lemma field_defined id i n d fs nm k g : sym_at t id = Some (mkSym i n (SyStruct d fs)) -> field_index fs nm = Some (k, g) -> sfields t id = Some fs.
Proof.
  intros Y F. unfold sfields. rewrite Y. destruct d; auto. pose proof (good_at _ _ _ _ G Y) as (_ & B). rewrite (B eq_refl) in F. discriminate.
Qed.

Lemma args_wt args : Forall wok args -> forall params va es t', resolve_args resolve params va args t = COk es t' ->
  Forall (wt_e t) es /\ fit_some t params va (map tag_of es).
Proof.
  induction 1 as [|a args Ha _ IH]; intros params va es t' E; cbn [resolve_args] in E.
  - rstep E. split; [constructor|]. destruct params; exact I.
  - apply cbind_ok in E as (e & t1 & E1 & E). pose proof (Ha _ _ E1) as W1. destruct (resolve_inv _ _ _ _ E1) as (-> & _).
    destruct params as [|p params].
    + rstep E. apply cbind_ok in E as (es' & t2 & E2 & E). destruct (IH _ _ _ _ E2) as (A & B0). rstep E. split; [constructor; auto|]. cbn. auto.
    + repeat rstep E. apply cbind_ok in E as (es' & t2 & E2 & E). destruct (IH _ _ _ _ E2) as (A & B). rstep E. split; [constructor; auto|]. cbn.
      split; auto. eexists. split; [reflexivity|]. eapply check_ok; eauto.
Qed.
Lemma inits_wt id fs args : sfields t id = Some fs -> Forall wok args -> forall nmd names i es t', resolve_inits resolve id nmd names i args t = COk es t' ->
  Forall (wt_e t) es /\
  if nmd then forall j nm g, nth_error names j = Some nm -> nth_error (map tag_of es) j = Some g -> wt_field t fs nm g
  else forall j f g, nth_error fs (i + j) = Some f -> nth_error (map tag_of es) j = Some g -> assign_ok t g (fd_tag f).
Proof.
  intros Sf. unfold sfields in Sf. destruct (sym_at t id) as [[? ? [| | | |[]| | |]]|] eqn:Y; try discriminate. injection Sf as ->.
  induction 1 as [|a args Ha _ IH]; intros nmd names i es t' E; cbn [resolve_inits] in E.
  - rstep E. split; [constructor|]. destruct nmd; intros [|] ? ? _; discriminate.
  - apply cbind_ok in E as (e & t1 & E1 & E). pose proof (Ha _ _ E1) as W1. destruct (resolve_inv _ _ _ _ E1) as (-> & _). rstep E.
    rewrite Y in E. rstep E. destruct (length fs <=? i); [discriminate|]. apply cbind_ok in E as (u & t2 & E2 & E). apply cbind_ok in E as (es' & t3 & E3 & E).
    destruct nmd.
    + destruct names as [|nm names]; try discriminate. destruct (field_index fs nm) as [[k gf]|] eqn:Fi; try discriminate.
      pose proof (check_same _ _ _ _ _ E2). subst t2. destruct (IH _ _ _ _ _ E3) as (A & B0). rstep E. split; [constructor; auto|].
      intros [|j] nm' g N1 N2; cbn in N1, N2.
      * injection N1 as <-. injection N2 as <-. exists k, gf. split; auto. eapply check_ok; eauto.
      * eapply B0; eauto.
    + destruct (nth_error fs i) as [f|] eqn:Nf; try discriminate. pose proof (check_same _ _ _ _ _ E2). subst t2. destruct (IH _ _ _ _ _ E3) as (A & B0). rstep E.
      split; [constructor; auto|]. intros [|j] f' g N1 N2; cbn in N2.
      * injection N2 as <-. rewrite Nat.add_0_r, Nf in N1. injection N1 as <-. eapply check_ok; eauto.
      * eapply B0; [|exact N2]. rewrite <- N1. f_equal. lia.
Qed.
Lemma resolve_wt e : wok e.
Proof.
  induction e using expr_ind'; intros e' T' E; cbn [resolve] in E; try (rstep E; exact I).
  - destruct r as [r|]; try discriminate. repeat rstep E. exact O.
  - rstep E. destruct (reference_function t f) as [y|] eqn:R; try discriminate. rstep E. destruct x as [[params va] ret].
    apply cbind_ok in E as (es & t1 & E1 & E). destruct (args_wt _ H _ _ _ _ E1) as (A & B). destruct (args_ok _ ltac:(apply Forall_forall; intros; apply resolve_inv) _ _ _ _ _ E1) as (-> & _).
    repeat rstep E. subst ret. cbn. split; [apply all_forall; auto|]. exists y, params, va. auto.
  - apply cbind_ok in E as (l' & t1 & E1 & E). destruct (resolve_inv _ _ _ _ E1) as (-> & _).
    apply cbind_ok in E as (r' & t2 & E2 & E). destruct (resolve_inv _ _ _ _ E2) as (-> & _). repeat rstep E. cbn. split; [eauto|]. split; [eauto|].
    exists x, x0. split; [eapply kindm_ok; eauto|]. split; [eapply kindm_ok; eauto|auto].
  - apply cbind_ok in E as (l' & t1 & E1 & E). destruct (resolve_inv _ _ _ _ E1) as (-> & _). repeat rstep E. cbn. split; [eauto|].
    exists x. split; [eapply kindm_ok; eauto|auto].
  - apply cbind_ok in E as (l' & t1 & E1 & E). destruct (resolve_inv _ _ _ _ E1) as (-> & _). repeat rstep E. cbn. eauto.
  - rstep E. destruct (sym_at t t0) as [[? ? [| | | |[] | | | ]]|] eqn:Y; try discriminate.
    assert (Sf : sfields t t0 = Some fields) by (unfold sfields; rewrite Y; auto).
    apply cbind_ok in E as (es & t1 & E1 & E). destruct (inits_wt _ _ _ Sf H _ _ _ _ _ E1) as (A & B). rstep E. cbn. split; [apply all_forall; auto|].
    exists fields. split; auto. destruct ns; auto.
  - apply cbind_ok in E as (l' & t1 & E1 & E). destruct (resolve_inv _ _ _ _ E1) as (-> & _). repeat rstep E. cbn. eauto.
  - apply cbind_ok in E as (l' & t1 & E1 & E). destruct (resolve_inv _ _ _ _ E1) as (-> & _). rstep E.
    destruct x; try discriminate. destruct (tag_of l') eqn:Tg; try discriminate. rstep E.
    destruct (sym_at t id) as [[? ? []]|] eqn:Y; try discriminate. rstep E. destruct x as [k g]. rstep E. cbn. split; [eauto|].
    exists id, fields, k. split; auto. split; auto. eapply field_defined; eauto.
  - apply cbind_ok in E as (l' & t1 & E1 & E). destruct (resolve_inv _ _ _ _ E1) as (-> & _).
    apply cbind_ok in E as (r' & t2 & E2 & E). destruct (resolve_inv _ _ _ _ E2) as (-> & _). repeat rstep E.
    destruct (reference_function t (index_name x (text_of "_get_index"))) as [y|] eqn:R; try discriminate. rstep E. destruct x0 as [[? ?] ?]. repeat rstep E. subst.
    cbn. split; [eauto|]. split; [eauto|]. exists y, l, b. split; auto. apply find_some in R as (I & _). apply in_sym_at; auto. apply G.
  - apply cbind_ok in E as (l' & t1 & E1 & E). destruct (resolve_inv _ _ _ _ E1) as (-> & _). rstep E.
    destruct (same_kind x KBoolT) eqn:Sk; try discriminate.
    apply cbind_ok in E as (r' & t2 & E2 & E). destruct (resolve_inv _ _ _ _ E2) as (-> & _).
    apply cbind_ok in E as (q' & t3 & E3 & E). destruct (resolve_inv _ _ _ _ E3) as (-> & _).
    destruct (tag_eq_dec _ _); try discriminate. rstep E. cbn. split; [eauto|]. split; [eauto|]. split; [eauto|]. split; auto.
    apply kindm_ok in K. destruct x; try discriminate. exact K.
Qed.
Lemma check_bool_ok c u t' : check_bool c t = COk u t' -> wt_e t c -> wt_bool t c.
Proof.
  unfold check_bool. intros E W. rstep E. destruct (same_kind x KBoolT) eqn:Sk; try discriminate. split; auto. apply kindm_ok in K. destruct x; try discriminate. exact K.
Qed.
End Resolve.

(** ** Statements *)
Record rres (t t' : tbl) (L : list vref) : Prop := {
  rr_shape : same_shape t t';
  rr_off : forall r, ~ In r L -> vtag t' r = vtag t r
}.
Lemma rres_refl t : rres t t [].
Proof. constructor; auto. apply shape_refl. Qed.
Lemma rres_trans a b c L L' : rres a b L -> rres b c L' -> rres a c (L ++ L').
Proof.
  intros [A1 A2] [B1 B2]. constructor; [eapply shape_trans; eauto|]. intros r N. rewrite in_app_iff in N. rewrite B2 by tauto. apply A2. tauto.
Qed.
Definition fresh_in (t : tbl) (L : list vref) : Prop := NoDup L /\ Forall (fun r => vtag t r = Some None) L.
Lemma fresh_app t L L' : fresh_in t (L ++ L') -> fresh_in t L /\ forall t', rres t t' L -> fresh_in t' L'.
Proof.
  intros (N & F). apply Forall_app in F as (F1 & F2). destruct (nodup_app_l _ _ N) as (N1 & N2 & N3). split; [split; auto|].
  intros t' [_ O]. split; auto. rewrite Forall_forall in *. intros r I. rewrite O; auto. intros J. exact (N3 _ J I).
Qed.
Lemma rres_more t t' L : rres t t' L -> fresh_in t L -> forall r g, vtag t r = Some (Some g) -> vtag t' r = Some (Some g).
Proof.
  intros [_ O] (_ & F) r g V. rewrite O; auto. intros I. rewrite Forall_forall in F. rewrite (F _ I) in V. discriminate.
Qed.
Lemma rres_wt t t' L : good full t -> tidy t -> rres t t' L -> fresh_in t L -> forall cur s, wt_s t cur s -> wt_s t' cur s.
Proof.
  intros G T R F cur s. pose proof (rr_shape _ _ _ R) as Sh. apply wt_s_more; auto.
  - eapply shape_unique; [exact Sh|apply G].
  - apply shape_extends; auto.
  - apply shape_kinds; auto.
  - eapply rres_more; eauto.
Qed.
Lemma rres_wt_bool t t' L : good full t -> tidy t -> rres t t' L -> fresh_in t L -> forall c, wt_bool t c -> wt_bool t' c.
Proof.
  intros G T R F c. pose proof (rr_shape _ _ _ R) as Sh. apply wt_bool_more; auto.
  - eapply shape_unique; [exact Sh|apply G].
  - apply shape_extends; auto.
  - apply shape_kinds; auto.
  - eapply rres_more; eauto.
Qed.

Lemma wt_set_func t o cur s : good full t -> tidy t -> wt_s t cur s -> wt_s (set_func t o) cur s.
Proof.
  intros G T. apply wt_s_more; auto.
  - exact (gd_unique _ _ G).
  - constructor; [eauto|exists []; rewrite app_nil_r; auto].
  - exact (kinds_refl t).
Qed.
Definition swt (s : stmt) : Prop := forall t s' t', resolve_stmt s t = COk s' t' -> good full t -> tidy t -> fresh_in t (targets s) ->
  rres t t' (targets s) /\ wt_s t' (tb_func t) s'.

Lemma list_wt ss : Forall swt ss -> forall t ts t', resolve_list ss t = COk ts t' -> good full t -> tidy t -> fresh_in t (flat_map targets ss) ->
  rres t t' (flat_map targets ss) /\ Forall (wt_s t' (tb_func t)) ts.
Proof.
  induction 1 as [|s ss Hs _ IH]; intros t ts t' E G T F; cbn [resolve_list] in E.
  - rstep E. split; [apply rres_refl|constructor].
  - apply cbind_ok in E as (s' & t1 & E1 & E). cbn [flat_map] in *. destruct (fresh_app _ _ _ F) as (F1 & F2).
    destruct (Hs _ _ _ E1 G T F1) as (R1 & W1). pose proof (rr_shape _ _ _ R1) as Sh.
    apply cbind_ok in E as (ts' & t2 & E2 & E). destruct (IH _ _ _ E2 (shape_good _ _ Sh G) (shape_tidy _ _ Sh T) (F2 _ R1)) as (R2 & W2). rstep E.
    assert (Fu : tb_func t1 = tb_func t) by (destruct Sh as (_ & _ & _ & _ & _ & <-); auto). rewrite Fu in W2.
    split; [eapply rres_trans; eauto|]. constructor; auto. eapply rres_wt; [exact (shape_good _ _ Sh G)|exact (shape_tidy _ _ Sh T)|exact R2|exact (F2 _ R1)|exact W1].
Qed.

Lemma stmt_wt s : swt s.
Proof.
  induction s using stmt_ind'; intros t s' t' E G T F; cbn [resolve_stmt] in E.
  - apply cbind_ok in E as (e & t1 & E1 & E). destruct (resolve_inv _ _ _ _ E1) as (-> & _). pose proof (resolve_wt t G _ _ _ E1) as W.
    destruct e; try discriminate. rstep E. split; [apply rres_refl|]. cbn in W |- *. destruct W as (A & B). split; auto. eauto.
  - cbn [targets] in F |- *. destruct (tok_eqb o DECLARE) eqn:D.
    + destruct l; try discriminate. destruct r0 as [v|]; try discriminate.
      apply cbind_ok in E as (e & t1 & E1 & E). destruct (resolve_inv _ _ _ _ E1) as (-> & _). pose proof (resolve_wt t G _ _ _ E1) as W. rstep E.
      apply cbind_ok in E as (u & t2 & E2 & E). apply if_fail_ok in E2 as (_ & ->).
      apply cbind_ok in E as (u2 & t3 & E3 & E). rstep E. destruct (set_tag_step _ _ _ _ _ E3 T) as (T' & K' & V & O).
      destruct (set_var_tag_shape _ _ _ _ _ (gd_unique _ _ G) E3) as (Sh & _).
      assert (R : rres t t3 [v]) by (constructor; auto; intros r' N; apply O; intros ->; apply N; left; auto).
      split; auto. pose proof (rres_wt _ _ _ G T R F None (TSReturn 0 (Some e))) as _. cbn. rewrite ref_vtag. split; auto.
      eapply wt_e_more; eauto; [eapply shape_unique; [exact Sh|apply G]|apply shape_extends; auto|eapply rres_more; eauto].
    + assert (Tg : match l with EId _ (Some _) => @nil vref | _ => [] end = []) by (destruct l; auto; destruct r0; auto).
      destruct (is_assign o).
      * apply cbind_ok in E as (e & t1 & E1 & E). destruct (resolve_inv _ _ _ _ E1) as (-> & _).
        apply cbind_ok in E as (e2 & t2 & E2 & E). destruct (resolve_inv _ _ _ _ E2) as (-> & _). repeat rstep E.
        split; [destruct l; try destruct r0; apply rres_refl|]. cbn. split; [eapply resolve_wt; eauto|]. split; [eapply resolve_wt; eauto|]. eapply check_ok; eauto.
      * apply cbind_ok in E as (e & t1 & E1 & E). destruct (resolve_inv _ _ _ _ E1) as (-> & _). rstep E.
        split; [destruct l; try destruct r0; apply rres_refl|]. destruct (tok_eqb o DECLARECONST); exact I.
  - apply cbind_ok in E as (ts & t1 & E1 & E). rstep E. destruct (list_wt _ H _ _ _ E1 G T F) as (R & W). split; auto. cbn. apply all_forall. auto.
  - rstep E. apply cbind_ok in E as (u & t1 & E1 & E). injection E1 as _ <-.
    apply cbind_ok in E as (b & t2 & E2 & E). apply cbind_ok in E as (u3 & t3 & E3 & E). injection E3 as _ <-. rstep E.
    assert (G1 : good full (set_func t (Some f))) by (eapply good_same; [| | |exact G]; try reflexivity; intros []; reflexivity).
    assert (T1 : tidy (set_func t (Some f))) by (eapply tidy_same; [| |exact T]; reflexivity).
    destruct (IHs _ _ _ E2 G1 T1 F) as ([R1 R2] & W). split.
    + constructor; [|exact R2]. destruct R1 as (S1 & S2 & S3 & S4 & S5 & S6). repeat split; auto.
    + cbn [wt_s]. apply wt_set_func; [exact (shape_good _ _ R1 G1)|exact (shape_tidy _ _ R1 T1)|exact W].
  - apply cbind_ok in E as (e & t1 & E1 & E). destruct (resolve_inv _ _ _ _ E1) as (-> & _). pose proof (resolve_wt t G _ _ _ E1) as W.
    apply cbind_ok in E as (u & t2 & E2 & E). pose proof (check_bool_ok t _ _ _ E2 W) as Wb. apply check_bool_same in E2. subst t2.
    apply cbind_ok in E as (a' & t3 & E3 & E). apply cbind_ok in E as (b' & t4 & E4 & E). rstep E. destruct b as [b|].
    + apply cbind_ok in E4 as (x & t5 & E5 & E4). rstep E4. cbn [targets] in F |- *. pose proof F as F0. destruct (fresh_app _ _ _ F) as (F1 & F2).
      destruct (IHs _ _ _ E3 G T F1) as (R3 & W3). pose proof (rr_shape _ _ _ R3) as Sh.
      destruct (H _ eq_refl _ _ _ E5 (shape_good _ _ Sh G) (shape_tidy _ _ Sh T) (F2 _ R3)) as (R5 & W5).
      assert (Fu : tb_func t3 = tb_func t) by (destruct Sh as (_ & _ & _ & _ & _ & <-); auto). rewrite Fu in W5.
      pose proof (rres_trans _ _ _ _ _ R3 R5) as R. split; auto. cbn. split; [eapply rres_wt_bool; [exact G|exact T|exact R|exact F0|exact Wb]|].
      split; auto. eapply rres_wt; [exact (shape_good _ _ Sh G)|exact (shape_tidy _ _ Sh T)|exact R5|exact (F2 _ R3)|exact W3].
    + rstep E4. cbn [targets] in F |- *. destruct (IHs _ _ _ E3 G T F) as (R3 & W3). split; auto. cbn. split; [eapply rres_wt_bool; eauto|]. auto.
  - apply cbind_ok in E as (e & t1 & E1 & E). destruct (resolve_inv _ _ _ _ E1) as (-> & _). pose proof (resolve_wt t G _ _ _ E1) as W.
    apply cbind_ok in E as (u & t2 & E2 & E). pose proof (check_bool_ok t _ _ _ E2 W) as Wb. apply check_bool_same in E2. subst t2.
    apply cbind_ok in E as (a' & t3 & E3 & E). rstep E. cbn [targets] in F |- *.
    destruct (IHs _ _ _ E3 G T F) as (R3 & W3). split; auto. cbn. split; [eapply rres_wt_bool; eauto|]. auto.
  - cbn [targets] in F |- *. destruct (fresh_app _ _ _ F) as (F1 & F2).
    apply cbind_ok in E as (i' & t0 & E0 & E). destruct (IHs1 _ _ _ E0 G T F1) as (R0 & W0). pose proof (rr_shape _ _ _ R0) as Sh0.
    pose proof (shape_good _ _ Sh0 G) as G0. pose proof (shape_tidy _ _ Sh0 T) as T0. pose proof (F2 _ R0) as F3. destruct (fresh_app _ _ _ F3) as (F4 & F5).
    apply cbind_ok in E as (e & t1 & E1 & E). destruct (resolve_inv _ _ _ _ E1) as (-> & _). pose proof (resolve_wt t0 G0 _ _ _ E1) as W.
    apply cbind_ok in E as (u & t2 & E2 & E). pose proof (check_bool_ok t0 _ _ _ E2 W) as Wb. apply check_bool_same in E2. subst t2.
    apply cbind_ok in E as (a' & t3 & E3 & E). destruct (IHs2 _ _ _ E3 G0 T0 F4) as (R3 & W3). pose proof (rr_shape _ _ _ R3) as Sh3.
    pose proof (shape_good _ _ Sh3 G0) as G3. pose proof (shape_tidy _ _ Sh3 T0) as T3. pose proof (F5 _ R3) as F6.
    apply cbind_ok in E as (b' & t4 & E4 & E). destruct (IHs3 _ _ _ E4 G3 T3 F6) as (R4 & W4). rstep E.
    assert (Fu0 : tb_func t0 = tb_func t) by (destruct Sh0 as (_ & _ & _ & _ & _ & <-); auto).
    assert (Fu3 : tb_func t3 = tb_func t) by (destruct Sh3 as (_ & _ & _ & _ & _ & <-); auto). rewrite Fu0 in W3. rewrite Fu3 in W4.
    pose proof (rres_trans _ _ _ _ _ R3 R4) as R34. split; [eapply rres_trans; eauto|]. cbn.
    split; [eapply rres_wt; [exact G0|exact T0|exact R34|exact F3|exact W0]|].
    split; [eapply rres_wt_bool; [exact G0|exact T0|exact R34|exact F3|exact Wb]|].
    split; [eapply rres_wt; [exact G3|exact T3|exact R4|exact F6|exact W3]|exact W4].
  - apply cbind_ok in E as (g & t1 & E1 & E).
    assert (X : t1 = t /\ ret_of t (tb_func t) = Some g).
    { unfold ret_tag in E1. unfold ret_of. destruct (tb_func t) as [f|]; try discriminate.
      destruct (sym_at t f) as [[? ? [| |? ? ? []| | | | | ]]|]; try discriminate. injection E1 as <- <-. auto. }
    destruct X as (-> & Rg). destruct e as [e|].
    + apply cbind_ok in E as (e' & t2 & E2 & E). destruct (resolve_inv _ _ _ _ E2) as (-> & _). repeat rstep E.
      split; [apply rres_refl|]. cbn. split; [eapply resolve_wt; eauto|]. exists g. split; auto. eapply check_ok; eauto.
    + rstep E. destruct (same_kind x KVoid); rstep E. split; [apply rres_refl|exact I].
  - rstep E. split; [apply rres_refl|exact I].
  - rstep E. split; [apply rres_refl|exact I].
  - rstep E. split; [apply rres_refl|exact I].
Qed.

Theorem resolve_all_wt ss t ts t' : resolve_all ss t = COk ts t' -> good full t -> tidy t -> fresh_in t (flat_map targets ss) ->
  rres t t' (flat_map targets ss) /\ Forall (wt_s t' (tb_func t)) ts.
Proof. rewrite resolve_all_list. apply list_wt. apply Forall_forall. intros s _. apply stmt_wt. Qed.
