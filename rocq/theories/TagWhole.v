(** * Every statement compiled so far is well typed in the symbol table as it is now *)
From Verif Require Import Base Token Lexer Values Strings Code CodeProofs FileLine Syntax Symbols Parser Resolve Compile Layout LayoutProofs
  CompileProofs Host HostInv TableInv ParserInv ResolveInv LayTable Whole TypeSpec TypeCode TagTable TagParse TagResolve.
Local Open Scope nat_scope.
Local Open Scope cm_scope.

(** ** Generating code changes no type *)
Definition kq {A} (m : km A) : Prop := forall s a s', m s = COk a s' -> tidy (k_tbl s) -> tidy (k_tbl s') /\ tstep (k_tbl s) (k_tbl s') [].
Lemma kq_same {A} (m : km A) : (forall s a s', m s = COk a s' -> k_tbl s' = k_tbl s) -> kq m.
Proof. intros M s a s' E T. rewrite (M _ _ _ E). split; auto. apply tstep_refl. Qed.
Lemma kq_bind {A B} (m : km A) (f : A -> km B) : kq m -> (forall a, kq (f a)) -> kq (cbind m f).
Proof.
  intros M F s b s' E T. apply cbind_ok in E as (a & s1 & E1 & E). destruct (M _ _ _ E1 T) as (T1 & S1). destruct (F _ _ _ _ E T1) as (T2 & S2).
  split; auto. exact (tstep_trans _ _ _ _ _ S1 S2).
Qed.
Lemma kq_ret {A} (x : A) : kq (cret x).
Proof. apply kq_same. intros s a s' E. injection E as _ <-. reflexivity. Qed.
Lemma kq_fail {A} : kq (@cfail kst A). Proof. intros s a s' E. discriminate. Qed.
Lemma kq_ub {A} : kq (@cub kst A). Proof. intros s a s' E. discriminate. Qed.
Lemma kq_abort {A} : kq (@cabort kst A). Proof. intros s a s' E. discriminate. Qed.
Lemma kq_if {A} (c : bool) (m m' : km A) : kq m -> kq m' -> kq (if c then m else m').
Proof. destruct c; auto. Qed.
Lemma kq_tbl {A} (m : tbl -> cres tbl A) : tok m -> kq (kon_tbl m).
Proof.
  intros M s a s' E T. unfold kon_tbl in E. destruct (m (k_tbl s)) as [x t| | | | |] eqn:Em; try discriminate. injection E as _ <-. exact (M _ _ _ Em T).
Qed.
Lemma kq_at {A} (f : kst -> km A) : (forall x, kq (f x)) -> kq (fun s => f s s).
Proof. intros F s a s' E T. exact (F s s a s' E T). Qed.

Lemma kq_emit x : kq (emit x).
Proof. apply kq_same. intros s a s' E. injection E as _ <-. reflexivity. Qed.
Lemma kq_emit_i i : kq (emit_i i).
Proof. apply kq_same. intros s a s' E. injection E as _ <-. reflexivity. Qed.
Lemma kq_emit_value sz al v : kq (emit_value sz al v).
Proof. apply kq_same. intros s a s' E. unfold emit_value in E. destruct (gen_value _ _ _ _). injection E as _ <-. reflexivity. Qed.
Lemma kq_gen_jump o d : kq (gen_jump o d).
Proof. apply kq_bind; [apply kq_emit|intros _; apply kq_emit_value]. Qed.
Lemma kq_here : kq here.
Proof. apply kq_same. intros s a s' E. injection E as _ <-. reflexivity. Qed.
Lemma kq_patch p v : kq (patch p v).
Proof. apply kq_same. intros s a s' E. unfold patch in E. destruct (gen_value_at _ _ _ _); try discriminate. injection E as _ <-. reflexivity. Qed.
Lemma kq_push_int z : kq (push_int z).
Proof. unfold push_int. repeat apply kq_if; apply kq_emit_i. Qed.
Lemma kq_push_string i : kq (push_string i).
Proof. unfold push_string. repeat apply kq_if; apply kq_emit_i. Qed.
Lemma kq_call_sym n x : kq (call_sym n x).
Proof.
  destruct x; cbn [call_sym]; try apply kq_abort; try apply kq_emit_i. apply kq_bind; [apply kq_emit|intros _].
  apply kq_if; [apply kq_fail|]. apply kq_bind; [apply kq_emit|intros _]. apply kq_bind; [apply kq_emit_value|intros _]. apply kq_ret.
Qed.
Lemma kq_call_id n id : kq (call_id n id).
Proof. intros s a s' E T. unfold call_id in E. destruct (sym_at _ id) as [y|]; try discriminate. exact (kq_call_sym n (sy_body y) _ _ _ E T). Qed.
Lemma kq_get_ref r : kq (get_ref r).
Proof.
  intros s a s' E T. unfold get_ref in E.
  assert (X : (match var_of (k_tbl s) r with
        | Some v => if ((lv_index v <? 0) || (255 <? lv_index v))%Z%bool
                    then emit_i (IGetLocal (lv_index v)) s
                    else emit_i (IGetLocalW (lv_index v)) s
        | None => CUB
        end) = COk a s' -> tidy (k_tbl s') /\ tstep (k_tbl s) (k_tbl s') []).
  { destruct (var_of _ _) as [v|]; try discriminate. destruct (_ || _); intros; eapply kq_emit_i; eauto. }
  destruct r as [id|id|f i|f i]; try exact (X E).
  - destruct (sym_at _ id) as [[? ? []]|]; try discriminate. eapply kq_emit_i; eauto.
  - destruct (sym_at _ id) as [[? ? []]|]; try discriminate. destruct c; [eapply kq_emit_i|eapply kq_push_int|eapply kq_emit_i|eapply kq_push_string]; eauto.
Qed.
Lemma kq_set_ref r : kq (set_ref r).
Proof.
  intros s a s' E T. unfold set_ref in E.
  assert (X : (match var_of (k_tbl s) r with Some v => emit_i (ISetLocal (lv_index v)) s | None => CUB end) = COk a s' ->
    tidy (k_tbl s') /\ tstep (k_tbl s) (k_tbl s') []).
  { destruct (var_of _ _) as [v|]; try discriminate. intros; eapply kq_emit_i; eauto. }
  destruct r as [id|id|f i|f i]; try exact (X E); try discriminate. destruct (sym_at _ id) as [[? ? []]|]; try discriminate. eapply kq_emit_i; eauto.
Qed.
Lemma kq_need_field g f : kq (need_field g f).
Proof.
  apply kq_same. intros s a s' E. unfold need_field in E. destruct (field_no _ _ _) as [i|]; try discriminate. destruct (i <=? 255)%Z; try discriminate. congruence.
Qed.
Lemma kq_seq_args ms : Forall kq ms -> forall i, kq (seq_args i ms).
Proof.
  induction 1 as [|m ms M _ IH]; intros i; cbn [seq_args]; [apply kq_ret|]. apply kq_if; [apply kq_fail|]. apply kq_bind; auto.
Qed.
Lemma kq_seq_all ms : Forall kq ms -> kq (seq_all ms).
Proof. induction 1 as [|m ms M _ IH]; cbn [seq_all]; [apply kq_ret|]. apply kq_bind; auto. Qed.
Lemma kq_pick f ms : Forall kq ms -> forall ns, kq (pick f ns ms).
Proof.
  intros F ns. revert ms F. induction ns as [|n ns IH]; intros ms F; destruct F as [|m ms M F]; cbn [pick]; try apply kq_ret; [apply kq_abort|].
  apply kq_if; auto.
Qed.
Lemma kq_by_field fs ns ms : Forall kq ms -> kq (by_field fs ns ms).
Proof. intros F. induction fs; cbn [by_field]; [apply kq_ret|]. apply kq_bind; [apply kq_pick; auto|auto]. Qed.

Ltac qc :=
  match goal with
  | |- kq (cbind _ _) => apply kq_bind; [|intros ?]
  | |- kq (gen_jump _ _) => apply kq_gen_jump
  | |- kq here => apply kq_here
  | |- kq (patch _ _) => apply kq_patch
  | |- kq (emit_i _) => apply kq_emit_i
  | |- kq (push_int _) => apply kq_push_int
  | |- kq (push_string _) => apply kq_push_string
  | |- kq (get_ref _) => apply kq_get_ref
  | |- kq (set_ref _) => apply kq_set_ref
  | |- kq (call_id _ _) => apply kq_call_id
  | |- kq (need_field _ _) => apply kq_need_field
  | |- kq (cret _) => apply kq_ret
  | |- kq cfail => apply kq_fail
  | |- kq cub => apply kq_ub
  | |- kq cabort => apply kq_abort
  | |- kq (if _ then _ else _) => apply kq_if
  | |- kq _ => assumption
  end.
Lemma kq_named f n : kq (fun s => match reference_function (k_tbl s) f with Some y => call_sym n (sy_body y) s | None => CFail s end).
Proof. intros s a s' E T. destruct (reference_function _ f) as [y|]; try discriminate. exact (kq_call_sym n (sy_body y) _ _ _ E T). Qed.
Lemma kq_expr e : kq (compile_expr e).
Proof.
  induction e using texpr_ind'; cbn [compile_expr]; repeat qc.
  - apply kq_seq_args, Forall_map; exact H.
  - apply kq_named.
  - destruct o; cbn [binop_of]; repeat qc; try (destruct (is_one e2); repeat qc; fail).
  - destruct o; repeat qc. destruct e; repeat qc.
  - intros s a s' E T. destruct (sym_at _ _) as [[? ? [| | | |[]| | |]]|]; try discriminate.
    match type of E with ?m s = _ => assert (X : kq m) end.
    { apply kq_bind; [|intros _; apply kq_emit_i]. destruct ns; [apply kq_seq_all|apply kq_by_field]; apply Forall_map; exact H. }
    exact (X _ _ _ E T).
Qed.
Lemma kq_compile_call f args : kq (compile_call f args).
Proof.
  unfold compile_call. apply kq_bind; [apply kq_seq_args, Forall_map, Forall_forall; intros; apply kq_expr|]. intros n. apply kq_named.
Qed.
Ltac qall := repeat first [apply kq_expr | qc].
Lemma kq_rhs op l r : kq (compile_rhs op l r).
Proof. unfold compile_rhs. destruct (compound_op op) as [[]|]; qall. Qed.
Lemma kq_assign op l r : kq (compile_assign op l r).
Proof.
  destruct l; cbn [compile_assign]; qall; try apply kq_rhs.
  - apply kq_tbl, tok_set_var_init.
  - destruct setf; qall.
Qed.
Lemma kq_patch_all ps x y : kq (patch_all ps x y).
Proof. induction ps as [|[c p] ps IH]; cbn [patch_all]; qall. Qed.
Lemma kq_record_line f n : kq (record_line f n).
Proof.
  unfold record_line. apply kq_bind.
  - destruct f; qall. apply kq_tbl, tok_intern.
  - intros k. apply kq_same. intros s a s' E. injection E as _ <-. reflexivity.
Qed.
Lemma kq_set_fpc f pc : kq (set_fpc f pc).
Proof.
  apply kq_same. intros s a s' E. unfold set_fpc in E. destruct (sym_at _ f) as [[? ? []]|]; try discriminate.
  destruct (index <? length (k_fpcs s)); try discriminate. injection E as _ <-. reflexivity.
Qed.
Lemma kq_seq_stmts ms : Forall kq ms -> kq (seq_stmts ms).
Proof. induction 1 as [|m ms M _ IH]; cbn [seq_stmts]; qall. Qed.
Lemma kq_stmt file st : kq (compile_stmt file st).
Proof.
  induction st using tstmt_ind'; cbn [compile_stmt]; (apply kq_bind; [apply kq_record_line|intros _]);
    try (qall; try apply kq_compile_call; try apply kq_assign; try apply kq_patch_all; try apply kq_set_fpc; auto; fail).
  - apply kq_seq_stmts. apply Forall_map. exact H.
  - qall. destruct b as [y|]; qall. exact (H _ eq_refl).
  - destruct e; qall.
Qed.
Lemma kq_all file ss : kq (compile_all file ss).
Proof. induction ss as [|s ss IH]; cbn [compile_all]; qall. apply kq_stmt. Qed.

(** ** The invariant *)
Record tagd (s : kst) : Prop := mkTagd {
  tg_tidy : tidy (k_tbl s);
  tg_wt : Forall (wt_s (k_tbl s) None) (k_hist s)
}.
(** What is known about types stays *)
Definition tlater (s s' : kst) : Prop := kinds (k_tbl s) (k_tbl s') /\ vsame (k_tbl s) (k_tbl s').
Lemma tlater_refl s : tlater s s.
Proof. split; [apply kinds_refl|apply vsame_refl]. Qed.
Lemma tlater_trans a b c : tlater a b -> tlater b c -> tlater a c.
Proof. intros (A & B) (C & D). split; [eapply kinds_trans; eauto|eapply vsame_trans; eauto]. Qed.

Lemma wt_move t t' l : good full t -> tidy t -> tidy t' -> extends t t' -> kinds t t' -> vsame t t' ->
  Forall (wt_s t None) l -> Forall (wt_s t' None) l.
Proof. intros G T T' Ex Ki Vs F. eapply Forall_impl; [|exact F]. intros s. apply wt_s_more; auto. apply T'. Qed.

Lemma compile_state_tags pend file ss s ts s' :
  loaded (pend ++ map fst (flat_map ubodies ss)) s ->
  Forall (fun p => Forall (in_scope (Some (fst p))) (usrefs (snd p))) (flat_map ubodies ss) ->
  Forall (in_scope None) (flat_map usrefs ss) ->
  compile_state file ss s = COk ts s' -> tagd s -> fresh_in (k_tbl s) (flat_map targets ss) ->
  tagd s' /\ kinds (k_tbl s) (k_tbl s') /\
  forall r x, ~ In r (flat_map targets ss) -> vtag (k_tbl s) r = Some x -> vtag (k_tbl s') r = Some x.
Proof.
  intros L Ub Ur E [T W] Fr. destruct (compile_state_inv _ _ _ _ _ _ L Ub Ur E) as (L' & _ & _ & Hi & (t1 & Er & Sh) & La).
  pose proof (ld_good _ _ L) as G. pose proof (ld_func _ _ L) as Fu.
  destruct (resolve_all_wt _ _ _ _ Er G T Fr) as (R & Wt). rewrite Fu in Wt. pose proof (rr_shape _ _ _ R) as Sh1.
  pose proof (shape_good _ _ Sh1 G) as G1. pose proof (shape_tidy _ _ Sh1 T) as T1.
  assert (X : tidy (k_tbl s') /\ tstep t1 (k_tbl s') []).
  { unfold compile_state in E.
    apply cbind_ok in E as (h & s0 & E0 & E). injection E0 as <- <-.
    apply cbind_ok in E as (u1 & s1 & E1 & E). injection E1 as _ <-.
    apply cbind_ok in E as (ts0 & s2 & E2 & E). unfold kon_tbl in E2. cbn [k_tbl set_code] in E2. rewrite Er in E2. injection E2 as <- <-.
    apply cbind_ok in E as (u3 & s3 & E3 & E). injection E3 as _ <-.
    apply cbind_ok in E as (u4 & s4 & E4 & E). injection E4 as _ <-.
    apply cbind_ok in E as (u5 & s5 & E5 & E).
    cbn [k_tbl k_code k_fpcs k_ftab k_lines k_hist set_tbl set_code set_fpcs set_ftab] in E5.
    destruct (build_foreign _ _) as [ftab|] eqn:Ef; try discriminate. injection E5 as _ <-.
    apply cbind_ok in E as (u6 & s6 & E6 & E).
    apply cbind_ok in E as (u7 & s7 & E7 & E). apply emit_i_ok in E7. subst s7.
    apply cbind_ok in E as (u8 & s8 & E8 & E). injection E8 as _ <-. apply cret_ok in E as (_ & ->).
    exact (kq_all _ _ _ _ _ E6 T1). }
  destruct X as (T' & (K2 & V2 & _)).
  assert (K : kinds (k_tbl s) (k_tbl s')) by (eapply kinds_trans; [apply shape_kinds; exact Sh1|exact K2]).
  split; [|split; [exact K|]].
  - constructor; auto. rewrite Hi. apply Forall_app. split.
    + eapply Forall_impl; [|exact W]. intros x Hx.
      exact (wt_s_more t1 (k_tbl s') G1 T1 (td_unique _ T') (shape_extends _ _ Sh) K2 (fun r g => V2 r (Some g)) x None (rres_wt _ _ _ G T R Fr None x Hx)).
    + eapply wt_move; [exact G1|exact T1|exact T'|apply shape_extends; auto|exact K2|exact V2|exact Wt].
  - intros r x N V. apply V2. rewrite (rr_off _ _ _ R); auto.
Qed.

Definition tag_macros (mods : text -> macro) : Prop := forall m args as_ x b x', mods m args as_ x = COk b x' ->
  forall pend, loaded pend x -> tagd x -> tagd x' /\ tlater x x'.
Lemma run_uses_tags mods ss : safe_macros mods -> tag_macros mods ->
  forall s u s', run_uses mods ss s = COk u s' -> forall pend, loaded pend s -> tagd s -> tagd s' /\ tlater s s'.
Proof.
  intros Sm Hm. induction ss as [|st ss IH]; intros s u s' E pend L T; cbn [run_uses] in E.
  - apply cret_ok in E as (_ & ->). split; auto. apply tlater_refl.
  - destruct st; try exact (IH _ _ _ E _ L T).
    apply cbind_ok in E as (u1 & s1 & E1 & E).
    destruct (existsb _ _); try discriminate. destruct (128 <? length _); try discriminate.
    apply cbind_ok in E1 as (b & s2 & E2 & E1). destruct b; try discriminate. apply cret_ok in E1 as (_ & ->).
    destruct (Hm _ _ _ _ _ _ E2 _ L T) as (T2 & La). destruct (Sm _ _ _ _ _ _ E2 _ L) as (L2 & _).
    destruct (IH _ _ _ E _ L2 T2) as (T3 & La3). split; auto. eapply tlater_trans; eauto.
Qed.

Lemma compile_string_tags n mods file src ts s s' pend : safe_macros mods -> tag_macros mods -> loaded pend s -> tagd s ->
  compile_string n mods file src s = COk ts s' -> tagd s' /\ tlater s s'.
Proof.
  intros Hm Ht L Tg E. unfold compile_string in E. destruct (compile_body n mods file src s) as [x s1| | | | |] eqn:B; try discriminate.
  injection E as <- <-. unfold compile_body in B.
  apply cbind_ok in B as (n1 & s2 & E1 & B). injection E1 as _ <-.
  apply cbind_ok in B as (ss & s3 & E2 & B).
  destruct (parse_program n (start_parse (k_tbl s) src)) as [a p| | | | |] eqn:P; try discriminate. injection E2 as <- <-.
  apply cbind_ok in B as (n2 & s4 & E3 & B). injection E3 as _ <-.
  apply cbind_ok in B as (u5 & s5 & E5 & B). apply cbind_ok in B as (u6 & s6 & E6 & B).
  assert (s6 = s5) as -> by (destruct (forallb _ _); [injection E6 as _ <-; auto|discriminate]).
  apply cbind_ok in B as (ts & s7 & E7 & B). apply cbind_ok in B as (u8 & s8 & E8 & B).
  assert (s8 = s7) as -> by (destruct (forallb _ _); [injection E8 as _ <-; auto|discriminate]).
  apply cret_ok in B as (-> & ->).
  destruct (program_inv _ _ _ _ _ (ld_func _ _ L) P) as (Gr & Sc).
  assert (Et : ps_tbl (start_parse (k_tbl s) src) = k_tbl s) by (unfold start_parse; destruct (lex_all src); reflexivity).
  destruct Tg as [T W]. pose proof T as T0. rewrite <- Et in T0. destruct (program_targets _ _ _ _ P T0) as (Tp & (Kp & Vp & Np & Fp)).
  rewrite Et in Kp, Vp, Fp. clear T0.
  pose proof (loaded_tbl _ _ _ _ L Gr) as L3.
  assert (Tg3 : tagd (set_tbl s (ps_tbl p))).
  { constructor; [exact Tp|]. cbn [set_tbl k_tbl k_hist]. eapply wt_move; [apply L|exact T|exact Tp| |exact Kp|exact Vp|exact W].
    exact (la_tbl _ _ (later_tbl _ _ _ L _ Gr)). }
  destruct (run_uses_tags _ _ Hm Ht _ _ _ E5 _ L3 Tg3) as (Tg5 & (K5 & V5)). cbn [set_tbl k_tbl] in K5, V5.
  assert (L5 : loaded (pend ++ map fst (flat_map ubodies a)) s5).
  { eapply run_uses_inv; [|exact E5|exact L3]. intros m args as_ y b y' Em pd Lp. apply (Hm _ _ _ _ _ _ Em _ Lp). }
  assert (Fr : fresh_in (k_tbl s5) (flat_map targets a)).
  { split; auto. eapply Forall_impl; [|exact Fp]. intros r (_ & R). apply V5. exact R. }
  destruct (compile_state_tags _ _ _ _ _ _ L5 (gr_bodies _ _ _ Gr) Sc E7 Tg5 Fr) as (Tg7 & K7 & V7).
  split; auto. split.
  - eapply kinds_trans; [exact Kp|]. eapply kinds_trans; eauto.
  - intros r x V. apply V7; [|apply V5, Vp, V]. intros I. rewrite Forall_forall in Fp. destruct (Fp _ I) as (N & _). congruence.
Qed.

Lemma host_tags n o s s' pend : host n o s = COk tt s' -> loaded pend s -> tagd s -> tagd s' /\ tlater s s'.
Proof.
  intros E L [T W]. destruct (host_step _ _ _ _ E T) as (T' & (K & V & _) & Hi). split; [|split; auto]. constructor; auto. rewrite Hi.
  eapply wt_move; [apply L|exact T|exact T'| |exact K|exact V|exact W]. exact (la_tbl _ _ (host_later _ _ _ _ _ E L)).
Qed.
Theorem steps_tags s s' : steps s s' -> forall pend, loaded pend s -> tagd s -> tagd s' /\ tlater s s'.
Proof.
  induction 1 as [s|n o s s1 s2 E S IH|n mods file src ts s s1 s2 Hm IHm E S IH]; intros pend L T.
  - split; auto. apply tlater_refl.
  - destruct (host_tags _ _ _ _ _ E L T) as (T1 & A). destruct (IH _ (host_loaded _ _ _ _ _ E L) T1) as (T2 & B). split; auto. eapply tlater_trans; eauto.
  - assert (Sm : safe_macros mods).
    { intros m args as_ x b x' Em pd Lp. split; [eapply steps_loaded; eauto|]. eapply steps_later; eauto. }
    assert (Tm : tag_macros mods) by (intros m args as_ x b x' Em pd Lp Tp; exact (IHm _ _ _ _ _ _ Em _ Lp Tp)).
    destruct (compile_string_tags _ _ _ _ _ _ _ _ Sm Tm L T E) as (T1 & A).
    assert (L1 : loaded pend s1). { eapply compile_string_inv; [|exact E|exact L]. intros. eapply steps_loaded; eauto. }
    destruct (IH _ L1 T1) as (T2 & B). split; auto. eapply tlater_trans; eauto.
Qed.
Lemma tidy_init : tidy init_tbl.
Proof. constructor; cbn; try constructor; intros; contradiction. Qed.
Lemma two_hosts_tags n o m o' s s' : cbind (host n o) (fun _ => host m o') s = COk tt s' -> loaded [] s -> tagd s -> tagd s'.
Proof.
  intros E L T. apply cbind_ok in E as ([] & s1 & E1 & E). destruct (host_tags _ _ _ _ _ E1 L T) as (T1 & _).
  exact (proj1 (host_tags _ _ _ _ _ E (host_loaded _ _ _ _ _ E1 L) T1)).
Qed.
Lemma create_tags s : create_state = COk tt s -> tagd s.
Proof.
  unfold create_state. intros E. refine (two_hosts_tags _ _ _ _ _ _ E loaded_init _). constructor; [exact tidy_init|constructor].
Qed.
Theorem reachable_tags s : reachable s -> tagd s.
Proof.
  intros (s0 & E & S). exact (proj1 (steps_tags _ _ S _ (create_loaded _ E) (create_tags _ E))).
Qed.
Lemma tidy_structs t : tidy t -> struct_names t.
Proof.
  intros T y y' d d' fs fs' I I' B B' N. pose proof (td_structs _ T _ _ _ _ _ _ I I' B B' N) as E.
  pose proof (in_sym_at _ _ (td_unique _ T) I) as A. pose proof (in_sym_at _ _ (td_unique _ T) I') as A'. congruence.
Qed.
Lemma tidy_fields t : tidy t -> forall id fs, sfields t id = Some fs -> NoDup (map fd_name fs).
Proof.
  intros T id fs E. unfold sfields in E. destruct (sym_at t id) as [[i n []]|] eqn:Y; try discriminate. destruct defined; try discriminate.
  injection E as ->. destruct (sym_at_in _ _ _ Y) as (I & _). exact (td_fields _ T _ _ _ I eq_refl).
Qed.
Lemma compile_tags n mods file src ts s s' : reachable s -> (forall m args as_ x b x', mods m args as_ x = COk b x' -> steps x x') ->
  compile_string n mods file src s = COk ts s' -> tagd s'.
Proof.
  intros R Hm E. pose proof (reachable_loaded _ R) as L. pose proof (reachable_tags _ R) as T.
  assert (S : steps s s') by (eapply st_compile; [exact Hm|exact E|apply st_refl]). exact (proj1 (steps_tags _ _ S _ L T)).
Qed.
