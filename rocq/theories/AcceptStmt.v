(** * When code generation succeeds: statements *)
From Verif Require Import Base Token Values Strings StringsProofs Code CodeProofs FileLine Syntax Symbols Resolve Compile Layout LayoutProofs CompileProofs ParserInv.
From Verif Require Import TypingProofs TypingExpr Typing Accept AcceptCode.
Local Open Scope Z_scope.

(** The variable has been marked as initialised *)
Definition inited (t : tbl) (v : vref) : Prop :=
  match v with
  | RGlobal id => exists a b i g, sym_at t id = Some (mkSym a b (SyGlobal i true g))
  | RConst _ => False
  | _ => exists x, var_of t v = Some x /\ lv_init x = true
  end.
(** The variables that a statement assigns to by name *)
Fixpoint assigned (s : tstmt) : list vref :=
  match s with
  | TSDecl _ v _ => [v]
  | TSAsg _ _ (TId v _) _ => [v]
  | TSBlock _ ss => flat_map assigned ss
  | TSProc _ _ b => assigned b
  | TSIf _ _ a b => assigned a ++ match b with Some b' => assigned b' | None => [] end
  | TSWhile _ _ b => assigned b
  | TSFor _ i _ st b => assigned i ++ assigned st ++ assigned b
  | _ => []
  end.

Lemma update_nth {A} (l : list A) : forall i x j, nth_error (update l i x) j = if (j =? i)%nat then option_map (fun _ => x) (nth_error l i) else nth_error l j.
Proof.
  intros i x j. destruct (Nat.eqb_spec j i) as [->|N]; [|apply nth_error_update_ne; congruence].
  destruct (Nat.lt_ge_cases i (length l)) as [L|L].
  - rewrite nth_error_update_eq by exact L. destruct (nth_error l i) eqn:E; [reflexivity|]. apply nth_error_None in E. lia.
  - rewrite (proj2 (nth_error_None l i)) by exact L. apply nth_error_None. rewrite update_length. exact L.
Qed.

Lemma put_init t f y b v : sym_at t f = Some y ->
  (forall i x g, sy_body y = SyGlobal i x g -> x = true -> exists i' g', b = SyGlobal i' true g') ->
  (forall k a l r, sy_body y = SyFunc k a l r -> exists a' l', b = SyFunc k a' l' r /\
     (forall j x, nth_error a j = Some x -> lv_init x = true -> exists x', nth_error a' j = Some x' /\ lv_init x' = true) /\
     (forall j x, nth_error l j = Some x -> lv_init x = true -> exists x', nth_error l' j = Some x' /\ lv_init x' = true)) ->
  inited t v -> inited (put_body t f b) v.
Proof.
  intros Y G F H. destruct v as [id|id|g j|g j]; cbn [inited var_of] in *; auto; rewrite (sym_at_put _ _ _ _ _ Y).
  - destruct H as (p & q & i & g & H). destruct (Nat.eqb_spec id f) as [->|]; [|eauto 6].
    assert (y = mkSym p q (SyGlobal i true g)) as -> by congruence. destruct (G _ _ _ eq_refl eq_refl) as (i' & g' & ->). eauto 6.
  - destruct H as (x & H & I). destruct (Nat.eqb_spec g f) as [->|]; [|eauto]. rewrite Y in H.
    destruct y as [p q by_]; destruct by_; try discriminate. destruct (F _ _ _ _ eq_refl) as (a' & l' & -> & _ & Fl). eauto.
  - destruct H as (x & H & I). destruct (Nat.eqb_spec g f) as [->|]; [|eauto]. rewrite Y in H.
    destruct y as [p q by_]; destruct by_; try discriminate. destruct (F _ _ _ _ eq_refl) as (a' & l' & -> & Fl & _). eauto.
Qed.

Lemma update_init l i x : nth_error l i = Some x -> forall j y, nth_error l j = Some y -> lv_init y = true ->
  exists y', nth_error (update l i (lv_set_init x)) j = Some y' /\ lv_init y' = true.
Proof.
  intros N j y E I. rewrite update_nth. destruct (Nat.eqb_spec j i) as [->|]; [|eauto]. rewrite N. cbn. eauto.
Qed.

(** Marking a variable *)
Lemma set_init_ok t v : readable t v -> writable v ->
  exists t', set_var_init v t = COk tt t' /\ tb_strings t' = tb_strings t /\ inited t' v /\ forall w, inited t w -> inited t' w.
Proof.
  intros R W. destruct v as [id|id|f i|f i]; cbn [readable writable set_var_init put_var] in *; try contradiction.
  - unfold gidx in R. destruct (sym_at t id) as [[p q b]|] eqn:Y; [|contradiction]. destruct b; try contradiction.
    eexists. split; [reflexivity|]. split; [reflexivity|]. split.
    + cbn [inited]. rewrite (sym_at_put _ _ _ _ _ Y), Nat.eqb_refl. eauto 6.
    + intros w. eapply put_init; [exact Y| |discriminate]. intros; eauto.
  - unfold lidx in R. cbn [var_of] in R. destruct (sym_at t f) as [[p q b]|] eqn:Y; [|contradiction]. destruct b; try contradiction.
    destruct (nth_error locals i) as [x|] eqn:N; [|contradiction]. eexists. split; [reflexivity|]. split; [reflexivity|]. split.
    + cbn [inited var_of]. rewrite (sym_at_put _ _ _ _ _ Y), Nat.eqb_refl. rewrite update_nth, Nat.eqb_refl, N. cbn. eauto.
    + intros w. eapply put_init; [exact Y|discriminate|]. cbn. intros k a l r [= <- <- <- <-]. do 2 eexists. split; [reflexivity|]. split; [eauto|apply update_init; exact N].
  - unfold lidx in R. cbn [var_of] in R. destruct (sym_at t f) as [[p q b]|] eqn:Y; [|contradiction]. destruct b; try contradiction.
    destruct (nth_error args i) as [x|] eqn:N; [|contradiction]. eexists. split; [reflexivity|]. split; [reflexivity|]. split.
    + cbn [inited var_of]. rewrite (sym_at_put _ _ _ _ _ Y), Nat.eqb_refl. rewrite update_nth, Nat.eqb_refl, N. cbn. eauto.
    + intros w. eapply put_init; [exact Y|discriminate|]. cbn. intros k a l r [= <- <- <- <-]. do 2 eexists. split; [reflexivity|]. split; [apply update_init; exact N|eauto].
Qed.

Lemma readable_shape t t' v : same_shape t t' -> readable t v -> readable t' v.
Proof.
  intros E. destruct v; cbn [readable]; rewrite ?(shape_gidx _ _ _ E), ?(shape_cval _ _ _ E); auto; rewrite (shape_lidx _ _ _ E); auto.
Qed.

Section Gen.
Variable t0 : tbl.
Variable file : option text.
Hypothesis U0 : unique t0.
Notation K := (K t0 file).

Definition keeps (s s' : kst) : Prop := K s' /\ plen (k_code s) <= plen (k_code s') /\ forall v, inited (k_tbl s) v -> inited (k_tbl s') v.
Lemma keeps_refl s : K s -> keeps s s.
Proof. intros H. split; [exact H|]. split; [lia|auto]. Qed.
Lemma keeps_trans a b c : keeps a b -> keeps b c -> keeps a c.
Proof. intros (A & B & C) (D & E & F). split; [exact D|]. split; [lia|auto]. Qed.
Lemma keeps_extends a b : K a -> extends a b -> keeps a b.
Proof. intros H X. split; [eapply extends_K; eauto|]. destruct X as (E & L). split; [exact L|]. rewrite E. auto. Qed.
Lemma keeps_K a b : keeps a b -> K b.
Proof. intros (A & _). exact A. Qed.
Lemma keeps_inited a b v : keeps a b -> inited (k_tbl a) v -> inited (k_tbl b) v.
Proof. intros (_ & _ & A). apply A. Qed.
Lemma slot_keeps pos a b : keeps a b -> slot pos a -> slot pos b.
Proof. intros (_ & L & _) (A & B & C). split; [|split]; auto. lia. Qed.

Definition slots (p : list (bool * Z)) (s : kst) : Prop := Forall (fun x => slot (snd x) s) p.
Lemma slots_keeps p a b : keeps a b -> slots p a -> slots p b.
Proof. intros X. apply Forall_impl. intros x. apply slot_keeps. exact X. Qed.

Definition after (A : list vref) (s : kst) (p : list (bool * Z)) (s' : kst) : Prop :=
  keeps s s' /\ slots p s' /\ forall v, In v A -> inited (k_tbl s') v.
Definition runs (P : Prop) (A : list vref) (m : km (list (bool * Z))) : Prop := forall s, K s -> out P (m s) (after A s).
Definition runs_u (P : Prop) (A : list vref) (m : km unit) : Prop := forall s, K s -> out P (m s) (fun _ s' => keeps s s' /\ forall v, In v A -> inited (k_tbl s') v).

Lemma run_keeps P m s : run t0 file P m -> K s -> out P (m s) (fun _ s' => keeps s s').
Proof. intros R H. eapply out_post; [|apply R; exact H]. cbn beta. intros _ s'. apply keeps_extends. exact H. Qed.

(** ** Lines *)
Lemma record_out n s : K s -> out True (record_line file n s) (fun _ s' => keeps s s').
Proof.
  intros H. unfold record_line. pattern file at 1. case_eq file; [intros f F|intros F].
  - assert (X : exists i t1, kon_tbl (intern f) s = COk i (set_tbl s t1) /\ tb_syms t1 = tb_syms (k_tbl s) /\ K (set_tbl s t1)).
    { unfold kon_tbl, intern, register_string. pose proof (K_room _ _ _ H) as Ro. unfold room in Ro. rewrite F in Ro.
      pose proof (find_string_spec (tb_strings (k_tbl s)) (until_nul f) 0) as Sp. destruct (find_string _ _ _) as [i|] eqn:E.
      - do 2 eexists. split; [reflexivity|]. split; [reflexivity|]. destruct H as [A B C]. constructor; auto. 
      - unfold oassert. assert (length (tb_strings (k_tbl s)) < max_strings)%nat as L.
        { destruct Ro as [I|L]; [contradiction|exact L]. }
        apply Nat.ltb_lt in L. rewrite L. do 2 eexists. split; [reflexivity|]. split; [reflexivity|]. destruct H as [A B C]. constructor; auto.
        unfold room. rewrite F. left. cbn. apply in_or_app. right. left. reflexivity. }
    destruct X as (i & t1 & E & S1 & K1). unfold cbind at 1 2. rewrite E. apply out_ok; [exact I|]. cbn [set_lines set_tbl k_lines k_code k_tbl].
    destruct K1 as [A B C]. split; [constructor; assumption|]. split; [cbn; lia|]. cbn [set_lines set_tbl k_tbl].
    intros v. assert (SA : forall id, sym_at t1 id = sym_at (k_tbl s) id) by (intros; unfold sym_at; rewrite S1; reflexivity).
    destruct v; cbn [inited var_of]; rewrite ?SA; auto.
  - apply out_ok; [exact I|]. destruct H as [A B C]. split; [constructor; assumption|]. split; [cbn; lia|]. auto.
Qed.

(** ** Assignments *)
Notation run := (run t0 file).
Notation ready_e := (ready_e t0).
Notation fine_e := (fine_e t0).

Lemma compound_is op : is_compound op = match compound_op op with Some _ => true | None => false end.
Proof. destruct op; reflexivity. Qed.
Lemma run_ex e : ready_e e -> run (fine_e e) (compile_expr e).
Proof. apply run_expr. Qed.
Lemma run_rhs op l r : ready_e l -> ready_e r ->
  run ((is_compound op = true -> fine_e l) /\ fine_e r) (compile_rhs op l r).
Proof.
  intros Rl Rr. pose proof (run_ex _ Rl) as Hl. pose proof (run_ex _ Rr) as Hr. rewrite compound_is. unfold compile_rhs. destruct (compound_op op) as [o|].
  - assert (D : (true = true -> fine_e l) /\ fine_e r <-> fine_e l /\ fine_e r) by (split; [intros (A & B); split; [apply A; reflexivity|exact B]|tauto]).
    destruct o; first [apply run_one; assumption|apply run_two; [assumption..|apply run_emit_i]].
  - eapply run_iff; [|exact Hr]. split; [intros H; split; [discriminate|exact H]|tauto].
Qed.

Lemma run_assign op l r : ready_e l -> ready_e r ->
  runs_u (target_fine t0 (is_compound op) l r) (match l with TId v _ => [v] | _ => [] end) (compile_assign op l r).
Proof.
  intros Rl Rr. destruct l; cbn [compile_assign target_fine]; try (intros s _; apply out_no; auto; fail).
  - (* variable *) intros s Hs. pose proof (run_rhs op _ _ Rl Rr) as H. cbn [AcceptCode.ready_e] in Rl.
    assert (D : ((is_compound op = true -> fine_e (TId r0 t)) /\ fine_e r) /\ writable r0 <-> match r0 with RConst _ => False | _ => fine_e r end)
      by (cbn [Accept.fine_e]; destruct r0; cbn [writable]; tauto).
    apply (out_iff _ _ _ _ D). eapply out_bind; [apply H; exact Hs|]. cbn beta. intros _ s1 X1.
    pose proof (extends_K _ _ _ _ X1 Hs) as H1. eapply out_last; [apply out_with; apply (run_set t0 file _ Rl s1 H1)|]. cbn beta. intros _ s2 (W & X2).
    pose proof (extends_K _ _ _ _ X2 H1) as H2. pose proof (extends_trans _ _ _ X1 X2) as X.
    destruct (set_init_ok (k_tbl s2) r0) as (t' & E & Es & Ii & Im); [eapply readable_shape; [apply (K_shape _ _ _ H2)|exact Rl]|exact W|].
    unfold kon_tbl. rewrite E. apply out_ok; [exact I|]. destruct X as (Eo & L). destruct H2 as [A B C]. split.
    + split; [constructor|split]; cbn [set_tbl k_tbl k_fpcs k_code].
      * eapply shape_trans; [exact A|]. eapply set_var_init_shape; [eapply shape_unique; [exact A|exact U0]|exact E].
      * exact B.
      * unfold room in *. rewrite Es. exact C.
      * exact L.
      * intros v Hv. apply Im. rewrite Eo. exact Hv.
    + intros v [<-|[]]. exact Ii.
  - (* field *) intros s Hs. pose proof (run_rhs op _ _ Rl Rr) as H. destruct Rl as (Ro & F). fold ready_e in Ro.
    assert (D : ((is_compound op = true -> fine_e (TDot l f t)) /\ fine_e r) /\ fine_e l <-> fine_e l /\ fine_e r) by (cbn [Accept.fine_e]; tauto).
    apply (out_iff _ _ _ _ D). eapply out_bind; [apply H; exact Hs|]. cbn beta. intros _ s1 X1.
    pose proof (extends_K _ _ _ _ X1 Hs) as H1. eapply out_step; [apply (field_out t0 file _ _ s1 H1 F)|]. cbn beta. intros k s2 ->.
    eapply out_post; [|apply (run_then t0 file _ _ _ (run_ex _ Ro) (run_emit_i t0 file (IStructSet k)) s1 H1)].
    cbn beta. intros _ s3 X3. split; [|intros v []]. apply keeps_extends; [exact Hs|]. eapply extends_trans; eauto.
  - (* index *) intros s Hs. pose proof (run_rhs op _ _ Rl Rr) as H. destruct Rl as (Ra & Ri & G & S1).
    set (m := cbind (compile_expr l1) _).
    assert (X : run (fine_e l1 /\ fine_e l2 /\ (is_compound op = true -> id_fine t0 getf 2) /\ fine_e r /\ (exists f, setf = Some f /\ id_fine t0 f 3)) m).
    { eapply run_iff; [|apply run_seq; [exact (run_ex _ Ra)|apply run_seq; [exact (run_ex _ Ri)|apply run_seq; [exact H|]]]].
      2: { instantiate (1 := exists f, setf = Some f /\ id_fine t0 f 3). destruct setf as [f|].
           - eapply run_iff; [|apply (run_callee t0 file f 3 S1)]. split; [eauto|]. intros (f' & [= <-] & Q). exact Q.
           - eapply run_iff; [|apply run_fail]. split; [tauto|]. intros (f' & Q & _). discriminate. }
      cbn [Accept.fine_e]. tauto. }
    eapply out_post; [|apply X; exact Hs]. cbn beta. intros _ s' X'. split; [|intros v []]. apply keeps_extends; auto.
Qed.

(** ** Statements *)
Fixpoint ready_s (s : tstmt) : Prop :=
  let all := fix all (ss : list tstmt) : Prop := match ss with [] => True | s :: ss' => ready_s s /\ all ss' end in
  match s with
  | TSCall _ f args => ready_e (TCall f args GVoid)
  | TSDecl _ v e => readable t0 v /\ ready_e e
  | TSAsg _ _ l r => ready_e l /\ ready_e r
  | TSBlock _ ss => all ss
  | TSProc _ f b => (exists nm i args locals ret, sym_at t0 f = Some (mkSym f nm (SyFunc i args locals ret)) /\ (i < tb_nfun t0)%nat) /\ ready_s b
  | TSIf _ c a b => ready_e c /\ ready_s a /\ match b with Some b' => ready_s b' | None => True end
  | TSWhile _ c b => ready_e c /\ ready_s b
  | TSFor _ i c st b => ready_s i /\ ready_e c /\ ready_s b /\ ready_s st
  | TSReturn _ (Some e) => ready_e e
  | _ => True
  end.
Fixpoint ready_ss (ss : list tstmt) : Prop := match ss with [] => True | s :: ss' => ready_s s /\ ready_ss ss' end.
Fixpoint fine_ss (ss : list tstmt) : Prop := match ss with [] => True | s :: ss' => fine_s t0 s /\ fine_ss ss' end.
Lemma ready_block n ss : ready_s (TSBlock n ss) <-> ready_ss ss.
Proof. cbn [ready_s]. induction ss as [|s ss IH]; cbn; [tauto|]. rewrite IH. tauto. Qed.
Lemma fine_block n ss : fine_s t0 (TSBlock n ss) <-> fine_ss ss.
Proof. cbn [fine_s]. induction ss as [|s ss IH]; cbn; [tauto|]. rewrite IH. tauto. Qed.

Definition runs_s (st : tstmt) : Prop := ready_s st -> runs (fine_s t0 st) (assigned st) (compile_stmt file st).

Lemma runs_stmts ss : Forall runs_s ss -> ready_ss ss -> runs (fine_ss ss) (flat_map assigned ss) (seq_stmts (map (compile_stmt file) ss)).
Proof.
  induction 1 as [|st ss H F IH]; intros R s Hs; cbn [map seq_stmts flat_map ready_ss fine_ss] in *.
  - apply out_ok; [exact I|]. split; [apply keeps_refl; exact Hs|]. split; [constructor|intros v []].
  - eapply out_bind; [apply H; [apply R|exact Hs]|]. intros p s1 (X1 & P1 & A1).
    eapply out_last; [apply IH; [apply R|eapply keeps_K; eauto]|]. intros q s2 (X2 & P2 & A2). apply out_ok; [exact I|].
    split; [eapply keeps_trans; eauto|]. split; [apply Forall_app; split; [eapply slots_keeps; eauto|exact P2]|].
    intros v I. apply in_app_iff in I as [I|I]; [|auto]. eapply keeps_inited; eauto.
Qed.

Lemma jump_keeps op d s : K s -> out True (gen_jump op d s) (fun pos s' => keeps s s' /\ slot pos s').
Proof. intros H. eapply out_post; [|apply jump_out]. cbn beta. intros pos s' (X & S). split; [|exact S]. apply keeps_extends; auto. Qed.
Lemma patch_keeps pos v s : K s -> slot pos s -> out True (patch pos v s) (fun _ s' => keeps s s').
Proof. intros H S. eapply out_post; [|apply patch_out; exact S]. cbn beta. intros _ s' X. apply keeps_extends; auto. Qed.
Lemma patch_all_keeps brk cont p : forall s, K s -> slots p s -> out True (patch_all p brk cont s) (fun _ s' => keeps s s').
Proof.
  induction p as [|(b, pos) p IH]; intros s Hs S; cbn [patch_all]; [apply out_ok; [exact I|apply keeps_refl; exact Hs]|].
  inversion S as [|x l S1 S2]; subst. eapply out_step; [apply patch_keeps; [exact Hs|exact S1]|]. cbn beta. intros _ s1 X1.
  eapply out_post; [|apply IH; [eapply keeps_K; eauto|eapply slots_keeps; eauto]]. cbn beta. intros _ s2 X2. eapply keeps_trans; eauto.
Qed.

Lemma with_line P A n m : runs P A m -> runs P A (cbind (record_line file n) (fun _ => m)).
Proof.
  intros H s Hs. eapply out_step; [apply record_out; exact Hs|]. cbn beta. intros _ s1 X1.
  eapply out_post; [|apply H; eapply keeps_K; eauto]. intros p s2 (X2 & S2 & A2). split; [eapply keeps_trans; eauto|auto].
Qed.
Lemma fpc_out f nm i args locals ret pc s : K s -> sym_at t0 f = Some (mkSym f nm (SyFunc i args locals ret)) -> (i < tb_nfun t0)%nat ->
  out True (set_fpc f pc s) (fun n s' => n = length locals /\ keeps s s').
Proof.
  intros [A B C] Y L. unfold set_fpc. pose proof (shape_sym_at _ _ f A) as Q. rewrite Y in Q.
  destruct (sym_at (k_tbl s) f) as [[zi zn zb]|]; cbn in Q; [|discriminate]. injection Q as <- <- Q.
  destruct zb; cbn in Q; try discriminate. injection Q as <- E1 E2 <-.
  destruct (Nat.ltb_spec i (length (k_fpcs s))); [|lia]. apply out_ok; [exact I|]. split.
  - apply (f_equal (@length _)) in E2. rewrite !map_length in E2. lia.
  - split; [constructor; cbn [set_fpcs k_tbl k_fpcs]; auto; rewrite update_length; exact B|]. split; [cbn; lia|auto].
Qed.
Lemma expr_out e s : ready_e e -> K s -> out (fine_e e) (compile_expr e s) (fun _ s' => keeps s s').
Proof. intros R H. apply run_keeps; [apply run_ex; exact R|exact H]. Qed.
Lemma emit_out i s : K s -> out True (emit_i i s) (fun _ s' => keeps s s').
Proof. intros H. apply (run_keeps True); [apply run_emit_i|exact H]. Qed.
Lemma ret_out {A} (a : A) s (P : A -> kst -> Prop) : P a s -> out True (cret a s) P.
Proof. intros H. apply out_ok; auto. Qed.

Theorem runs_stmt st : runs_s st.
Proof.
  induction st using tstmt_ind'; intros R; cbn [compile_stmt]; apply with_line; intros s0 Hs.
  - (* call *) eapply out_last; [eapply run_keeps; [|exact Hs]|].
    + apply (proj1 (ready_call t0 f a GVoid)) in R as (R & F). eapply run_iff; [symmetry; apply (fine_call t0 f a GVoid)|].
      apply run_call; [apply Forall_forall; intros; apply run_expr|exact R|exact F].
    + cbn beta. intros _ s1 X. apply ret_out. split; [exact X|]. split; [constructor|intros v []].
  - (* declaration *) destruct R as (Rv & Re). eapply out_last; [apply (run_assign DECLARE (TId r (tag_of e)) e Rv Re s0 Hs)|].
    cbn beta. intros _ s1 (X & A). apply ret_out. split; [exact X|]. split; [constructor|exact A].
  - (* assignment *) destruct R as (Rl & Rr). eapply out_last; [apply (run_assign o l r Rl Rr s0 Hs)|].
    cbn beta. intros _ s1 (X & A). apply ret_out. split; [exact X|]. split; [constructor|destruct l; exact A].
  - apply ret_out. split; [apply keeps_refl; exact Hs|]. split; [constructor|intros v []].
  - apply out_no. auto.
  - (* block *) eapply out_iff; [symmetry; apply fine_block|]. apply ready_block in R. apply runs_stmts; auto.
  - (* function *) destruct R as ((nm & i & args & locals & ret & Y & L) & Rb).
    eapply out_step; [apply jump_keeps; exact Hs|]. cbn beta. intros skip s1 (X1 & S1).
    eapply out_step; [apply here_out|]. cbn beta. intros h s2 ->. 
    eapply out_step; [eapply fpc_out; [eapply keeps_K; eauto|exact Y|exact L]|]. cbn beta. intros n' s3 (-> & X3).
    assert (D : locals_fine t0 f <-> (length locals <= 255)%nat).
    { unfold locals_fine. split.
      - intros (nm' & i' & a' & l' & r' & De & Q). apply denotes_at in De. rewrite Y in De. injection De as <- <- <- <- <-. exact Q.
      - intros Q. exists nm, i, args, locals, ret. split; [apply denotes_at; exact Y|exact Q]. }
    pose proof (keeps_trans _ _ _ X1 X3) as X13.
    eapply out_iff; [|eapply out_bind with (P := (length locals <= 255)%nat)]; [|instantiate (1 := fun _ s' => keeps s3 s')|].
    + cbn [fine_s]. rewrite D. reflexivity.
    + destruct (Nat.ltb_spec 255 (length locals)) as [Q|Q]; [apply out_no; lia|].
      destruct (0 <? length locals)%nat; [eapply out_iff; [|apply emit_out; eapply keeps_K; eauto]; tauto|].
      apply out_ok; [exact Q|apply keeps_refl; eapply keeps_K; eauto].
    + cbn beta. intros _ s4 X4. eapply out_last; [apply (IHst Rb); eapply keeps_K; eauto|]. intros p s5 (X5 & _ & A5).
      eapply out_step; [apply emit_out; eapply keeps_K; eauto|]. cbn beta. intros _ s6 X6.
      eapply out_step; [apply here_out|]. cbn beta. intros h' s7 ->.
      pose proof (keeps_trans _ _ _ X4 (keeps_trans _ _ _ X5 X6)) as X46.
      eapply out_step; [apply patch_keeps; [eapply keeps_K; eauto|]; eapply slot_keeps; [exact (keeps_trans _ _ _ X3 X46)|exact S1]|]. cbn beta. intros _ s8 X8.
      apply ret_out. split; [exact (keeps_trans _ _ _ X13 (keeps_trans _ _ _ X46 X8))|]. split; [constructor|].
      intros v I. cbn [assigned] in I. eapply keeps_inited; [exact (keeps_trans _ _ _ X6 X8)|]. auto.
  - (* if *) destruct R as (Rc & Ra & Rb). cbn [fine_s assigned].
    eapply out_bind; [apply expr_out; [exact Rc|exact Hs]|]. cbn beta. intros _ s1 X1.
    eapply out_step; [apply jump_keeps; eapply keeps_K; eauto|]. cbn beta. intros skip s2 (X2 & S2).
    eapply out_bind; [apply (IHst Ra); eapply keeps_K; eauto|]. intros p s3 (X3 & P3 & A3).
    pose proof (keeps_trans _ _ _ X1 (keeps_trans _ _ _ X2 X3)) as X03. destruct b as [b|].
    + eapply out_step; [apply jump_keeps; eapply keeps_K; eauto|]. cbn beta. intros ex s4 (X4 & S4).
      eapply out_step; [apply here_out|]. cbn beta. intros h s5 ->.
      eapply out_step; [apply patch_keeps; [eapply keeps_K; eauto|]; eapply slot_keeps; [exact (keeps_trans _ _ _ X3 X4)|exact S2]|]. cbn beta. intros _ s6 X6.
      eapply out_last; [apply (H b eq_refl Rb); eapply keeps_K; eauto|]. intros q s7 (X7 & P7 & A7).
      eapply out_step; [apply here_out|]. cbn beta. intros h' s8 ->.
      eapply out_step; [apply patch_keeps; [eapply keeps_K; eauto|]; eapply slot_keeps; [exact (keeps_trans _ _ _ X6 X7)|exact S4]|]. cbn beta. intros _ s9 X9.
      apply ret_out. pose proof (keeps_trans _ _ _ X4 (keeps_trans _ _ _ X6 (keeps_trans _ _ _ X7 X9))) as X39.
      split; [exact (keeps_trans _ _ _ X03 X39)|]. split.
      * apply Forall_app. split; [exact (slots_keeps _ _ _ X39 P3)|exact (slots_keeps _ _ _ X9 P7)].
      * intros v I. apply in_app_iff in I as [I|I]; [exact (keeps_inited _ _ _ X39 (A3 _ I))|exact (keeps_inited _ _ _ X9 (A7 _ I))].
    + eapply out_step; [apply here_out|]. cbn beta. intros h s5 ->.
      eapply out_step; [apply patch_keeps; [eapply keeps_K; eauto|]; eapply slot_keeps; [exact X3|exact S2]|]. cbn beta. intros _ s6 X6.
      apply ret_out. split; [exact (keeps_trans _ _ _ X03 X6)|]. split; [eapply slots_keeps; eauto|].
      rewrite app_nil_r. intros v I. exact (keeps_inited _ _ _ X6 (A3 _ I)).
  - (* while *) destruct R as (Rc & Rb). cbn [fine_s assigned]. eapply out_step; [apply here_out|]. cbn beta. intros cond s ->.
    eapply out_bind; [apply expr_out; [exact Rc|exact Hs]|]. cbn beta. intros _ s1 X1.
    eapply out_step; [apply jump_keeps; eapply keeps_K; eauto|]. cbn beta. intros skip s2 (X2 & S2).
    eapply out_last; [apply (IHst Rb); eapply keeps_K; eauto|]. intros p s3 (X3 & P3 & A3).
    eapply out_step; [apply jump_keeps; eapply keeps_K; eauto|]. cbn beta. intros ex s4 (X4 & _).
    eapply out_step; [apply here_out|]. cbn beta. intros h s5 ->.
    eapply out_step; [apply patch_keeps; [eapply keeps_K; eauto|]; eapply slot_keeps; [exact (keeps_trans _ _ _ X3 X4)|exact S2]|]. cbn beta. intros _ s6 X6.
    eapply out_step; [apply patch_all_keeps; [eapply keeps_K; eauto|]; eapply slots_keeps; [exact (keeps_trans _ _ _ X4 X6)|exact P3]|]. cbn beta. intros _ s7 X7.
    apply ret_out. pose proof (keeps_trans _ _ _ X4 (keeps_trans _ _ _ X6 X7)) as X37.
    split; [exact (keeps_trans _ _ _ X1 (keeps_trans _ _ _ X2 (keeps_trans _ _ _ X3 X37)))|]. split; [constructor|].
    intros v I. exact (keeps_inited _ _ _ X37 (A3 _ I)).
  - (* for *) destruct R as (Ri & Rc & Rb & Rst). cbn [fine_s assigned].
    eapply out_bind; [apply (IHst1 Ri); exact Hs|]. intros p0 s00 (X0 & _ & A0).
    eapply out_step; [apply here_out|]. cbn beta. intros cond s ->.
    eapply out_bind; [apply expr_out; [exact Rc|eapply keeps_K; eauto]|]. cbn beta. intros _ s1 X1.
    eapply out_step; [apply jump_keeps; eapply keeps_K; eauto|]. cbn beta. intros skip s2 (X2 & S2).
    eapply out_bind; [apply (IHst3 Rb); eapply keeps_K; eauto|]. intros p s3 (X3 & P3 & A3).
    eapply out_step; [apply here_out|]. cbn beta. intros stp s ->.
    eapply out_last; [apply (IHst2 Rst); eapply keeps_K; eauto|]. intros p' s3' (X3' & _ & A3').
    eapply out_step; [apply jump_keeps; eapply keeps_K; eauto|]. cbn beta. intros ex s4 (X4 & _).
    eapply out_step; [apply here_out|]. cbn beta. intros h s5 ->.
    eapply out_step; [apply patch_keeps; [eapply keeps_K; eauto|]; eapply slot_keeps; [exact (keeps_trans _ _ _ X3 (keeps_trans _ _ _ X3' X4))|exact S2]|]. cbn beta. intros _ s6 X6.
    eapply out_step; [apply patch_all_keeps; [eapply keeps_K; eauto|]; eapply slots_keeps; [exact (keeps_trans _ _ _ X3' (keeps_trans _ _ _ X4 X6))|exact P3]|]. cbn beta. intros _ s7 X7.
    apply ret_out. pose proof (keeps_trans _ _ _ X4 (keeps_trans _ _ _ X6 X7)) as X37. pose proof (keeps_trans _ _ _ X3' X37) as X37'.
    pose proof (keeps_trans _ _ _ X1 (keeps_trans _ _ _ X2 (keeps_trans _ _ _ X3 X37'))) as X17.
    split; [exact (keeps_trans _ _ _ X0 X17)|]. split; [constructor|].
    intros v I. apply in_app_iff in I as [I|I]; [exact (keeps_inited _ _ _ X17 (A0 _ I))|]. apply in_app_iff in I as [I|I].
    + exact (keeps_inited _ _ _ X37 (A3' _ I)).
    + exact (keeps_inited _ _ _ X37' (A3 _ I)).
  - (* return *) destruct e as [e|]; cbn [fine_s].
    + eapply out_last; [apply expr_out; [exact R|exact Hs]|]. cbn beta. intros _ s1 X1.
      eapply out_step; [apply emit_out; eapply keeps_K; eauto|]. cbn beta. intros _ s2 X2. apply ret_out.
      split; [eapply keeps_trans; eauto|]. split; [constructor|intros v []].
    + eapply out_step; [apply emit_out; exact Hs|]. cbn beta. intros _ s2 X2. apply ret_out. split; [exact X2|]. split; [constructor|intros v []].
  - eapply out_step; [apply jump_keeps; exact Hs|]. cbn beta. intros p s2 (X2 & S2). apply ret_out. split; [exact X2|]. split; [repeat constructor; apply S2|intros v []].
  - eapply out_step; [apply jump_keeps; exact Hs|]. cbn beta. intros p s2 (X2 & S2). apply ret_out. split; [exact X2|]. split; [repeat constructor; apply S2|intros v []].
  - apply ret_out. split; [apply keeps_refl; exact Hs|]. split; [constructor|intros v []].
Qed.

Theorem runs_program ss : ready_ss ss -> runs_u (fine_ss ss) (flat_map assigned ss) (compile_all file ss).
Proof.
  induction ss as [|st ss IH]; intros R s Hs; cbn [compile_all fine_ss ready_ss flat_map] in *.
  - apply ret_out. split; [apply keeps_refl; exact Hs|intros v []].
  - eapply out_bind; [apply runs_stmt; [apply R|exact Hs]|]. intros p s1 (X1 & _ & A1).
    eapply out_post; [|apply IH; [apply R|eapply keeps_K; eauto]]. cbn beta. intros _ s2 (X2 & A2). split; [eapply keeps_trans; eauto|].
    intros v I. apply in_app_iff in I as [I|I]; [eapply keeps_inited; eauto|auto].
Qed.
End Gen.
