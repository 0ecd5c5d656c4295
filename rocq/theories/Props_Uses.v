(** * C52: exactly which sources with [use] statements are accepted *)
From Verif Require Import Base Token Lexer Values Strings Code FileLine Syntax Symbols Parser Resolve Compile Layout LayoutProofs CompileProofs TableInv.
From Verif Require Import ParserInv ResolveInv ParserTotal Host HostInv Whole Grammar GrammarStmt Props_Compile Props_Parser Props_Stmt Props_Names Props_Typing.
From Verif Require Import TypingProofs TypingExpr TypingStmt Typing Accept AcceptCode AcceptStmt AcceptReady AcceptGrammar AcceptRoom AcceptWhole Props_Accept.
From Verif Require Import StdBind LibrarySpec LibraryProofs LibDict Props_Bind Props_Library.
Local Open Scope nat_scope.

(** What the macros considered do: host bindings, one after the other *)
Inductive binds : kst -> kst -> Prop :=
| b_done s : binds s s
| b_host n o s s1 s2 : host n o s = COk tt s1 -> binds s1 s2 -> binds s s2.

(** The [use] statements of a program, run in their order: each names a macro that is
    bound, and the macro succeeds *)
Inductive uses (mods : text -> macro) : list stmt -> kst -> kst -> Prop :=
| us_done s : uses mods [] s s
| us_use n m args as_ ss s s1 s2 : (exists y, In y (tb_syms (k_tbl s)) /\ a_macro m y) -> length args <= 128 ->
    mods m args as_ s = COk true s1 -> uses mods ss s1 s2 -> uses mods (SUse n m args as_ :: ss) s s2
| us_other st ss s s1 : (forall n m args as_, st <> SUse n m args as_) -> uses mods ss s s1 -> uses mods (st :: ss) s s1.

(** The structures the source names (those of [T] that are not in [told]) have got
    their fields, or have been made types of the host's by a macro, in [t] *)
Definition own_structs_defined (told T t : tbl) : Prop :=
  forall id name d fs, denotes t id name (SyStruct d fs) -> (exists nm b, denotes T id nm b) -> (forall nm b, ~ denotes told id nm b) -> d = true.

Definition acceptable_with (mods : text -> macro) (s0 : kst) (src : text) (ts : list tstmt) : Prop :=
  exists a x ss T s1 T', tokens src a x /\ GrammarStmt.program (k_tbl s0) a x ss T /\ uses mods ss (set_tbl s0 T) s1 /\
    own_structs_defined (k_tbl s0) T (k_tbl s1) /\ all_typed (k_tbl s1) ss ts T' /\ Forall (fine_s T') ts.

(** No literal [-2^31] (finding F28); room for the literals, and after the macros for
    the file name *)
Definition plain_source (src : text) : Prop := Forall (fun t => tk t = INT -> tk_i t <> (- 2^31)%Z) (fst (lex_all src)).
Definition room_after (mods : text -> macro) (s0 : kst) (file : option text) (src : text) : Prop :=
  length (tb_strings (k_tbl s0)) + literals (fst (lex_all src)) <= 1024 /\
  (file <> None -> forall a x ss T s1, tokens src a x -> GrammarStmt.program (k_tbl s0) a x ss T -> uses mods ss (set_tbl s0 T) s1 -> length (tb_strings (k_tbl s1)) < 1024).

(** ** Proofs *)
Lemma uses_run mods ss : forall s s1, run_uses mods ss s = COk tt s1 <-> uses mods ss s s1.
Proof.
  induction ss as [|st ss IH]; intros s s1.
  - cbn [run_uses]. split; [intros [= <-]; constructor|intros U; inversion U; reflexivity].
  - assert (D : (exists n m args as_, st = SUse n m args as_) \/ (forall n m args as_, st <> SUse n m args as_)).
    { destruct st; try (right; intros; discriminate). left. eauto. }
    destruct D as [(n & m & args & as_ & ->)|Nu].
    + cbn [run_uses]. split.
      * intros E. apply cbind_ok in E as ([] & s2 & E1 & E). destruct (existsb _ _) eqn:Ex; [|discriminate]. destruct (128 <? length args) eqn:L; [discriminate|]. apply Nat.ltb_ge in L.
        apply cbind_ok in E1 as (b & s3 & E1 & E2). destruct b; [|discriminate]. injection E2 as <-.
        eapply us_use; [|exact L|exact E1|apply IH; exact E]. apply existsb_exists in Ex as (y & I & Q). exists y. split; [exact I|].
        unfold a_macro. destruct (sy_body y); try discriminate. apply text_eqb_eq in Q. auto.
      * intros U. inversion U; subst; [|match goal with N : forall _ _ _ _, _ <> _ |- _ => exfalso; eapply N; reflexivity end].
        match goal with Y : exists y, _, L : length args <= 128, E : mods _ _ _ _ = COk true ?s2, U' : uses _ ss ?s2 s1 |- _ =>
          destruct Y as (y & I & Q1 & Q2); apply IH in U'; apply (ok_cbind _ _ _ tt s2); [|exact U'];
          rewrite (proj2 (existsb_exists _ _)); [destruct (Nat.ltb_spec 128 (length args)); [lia|]; eapply ok_cbind; [exact E|reflexivity]|] end.
        exists y. split; [exact I|]. rewrite Q2, Q1. apply text_eqb_refl.
    + assert (Q : run_uses mods (st :: ss) = run_uses mods ss) by (destruct st; try reflexivity; exfalso; eapply Nu; reflexivity). rewrite Q. split.
      * intros E. apply us_other; [exact Nu|apply IH; exact E].
      * intros U. inversion U; subst; [exfalso; eapply Nu; reflexivity|]. apply IH. assumption.
Qed.
Lemma binds_inv s s' : binds s s' -> good full (k_tbl s) -> s' = set_tbl s (k_tbl s') /\ nofuns (k_tbl s) (k_tbl s').
Proof.
  induction 1 as [s|n o s s1 s2 E B IH]; intros G.
  - split; [destruct s; reflexivity|]. apply quiet_grew. apply TableInv.quiet_refl.
  - destruct (host_inv _ _ _ _ E G) as (E1 & Gr). destruct (IH (gr_good _ _ _ Gr G)) as (E2 & Gr2). split.
    + rewrite E2, E1. destruct s; reflexivity.
    + exact (grew_trans _ _ _ _ [] [] Gr Gr2).
Qed.
Lemma uses_binds mods ss : (forall m args as_ x b x', mods m args as_ x = COk b x' -> binds x x') ->
  forall s s', uses mods ss s s' -> binds s s'.
Proof.
  intros Hm s s' U. assert (T : forall a b c, binds a b -> binds b c -> binds a c) by (induction 1; intros; [assumption|econstructor; eauto]).
  induction U as [s|n m args as_ ss s s1 s2 X L E U IH|st ss s s1 N U IH]; [constructor| |exact IH]. eapply T; [eapply Hm; exact E|exact IH].
Qed.

(** The symbols the source declares, in a later table *)
Section Slice.
Variables told T t : tbl.
Hypothesis Lb : exists ns, map label (tb_syms T) = map label (tb_syms told) ++ ns.
Hypothesis Lb1 : exists ns, map label (tb_syms t) = map label (tb_syms T) ++ ns.
Hypothesis U : unique T.
Hypothesis U1 : unique t.
Let own := slice (tb_syms t) (length (tb_syms told)) (length (tb_syms T)).
Lemma ids_of_labels l : map sy_id l = map (fun x => fst (fst x)) (map label l).
Proof. rewrite map_map. reflexivity. Qed.
Lemma own_ids : map sy_id own = skipn (length (tb_syms told)) (map sy_id (tb_syms T)).
Proof.
  destruct Lb1 as (ns & E). unfold own, slice. rewrite <- firstn_map, <- skipn_map, !ids_of_labels, E, map_app.
  assert (L : length (tb_syms told) <= length (tb_syms T)) by (destruct Lb as (k & E0); apply (f_equal (@length _)) in E0; rewrite app_length, !map_length in E0; lia).
  rewrite skipn_app, firstn_app, map_length, map_length, skipn_length, map_length, map_length.
  replace (length (tb_syms T) - length (tb_syms told) - (length (tb_syms T) - length (tb_syms told))) with 0 by lia. cbn [firstn]. rewrite app_nil_r.
  apply firstn_all2. rewrite skipn_length, !map_length. lia.
Qed.
Lemma told_ids : map sy_id (tb_syms told) = firstn (length (tb_syms told)) (map sy_id (tb_syms T)).
Proof. destruct Lb as (ns & E). rewrite (ids_of_labels (tb_syms T)), E, map_app, <- ids_of_labels. rewrite firstn_app, map_length, Nat.sub_diag, firstn_all2 by (rewrite map_length; lia). cbn [firstn]. symmetry. apply app_nil_r. Qed.
Lemma own_in y : In y own -> In y (tb_syms t) /\ In (sy_id y) (map sy_id (tb_syms T)) /\ ~ In (sy_id y) (map sy_id (tb_syms told)).
Proof.
  intros I. split; [|].
  - unfold own, slice in I. assert (J : incl (firstn (length (tb_syms T) - length (tb_syms told)) (skipn (length (tb_syms told)) (tb_syms t))) (tb_syms t)); [|exact (J _ I)].
    intros z Iz. rewrite <- (firstn_skipn (length (tb_syms told)) (tb_syms t)). apply in_or_app. right.
    rewrite <- (firstn_skipn (length (tb_syms T) - length (tb_syms told)) (skipn _ _)). apply in_or_app. left. exact Iz.
  - apply (in_map sy_id) in I. rewrite own_ids in I. split.
    + rewrite <- (firstn_skipn (length (tb_syms told)) (map sy_id (tb_syms T))). apply in_or_app. right. exact I.
    + rewrite told_ids. intros J. unfold unique in U. rewrite <- (firstn_skipn (length (tb_syms told)) (map sy_id (tb_syms T))) in U.
      revert J I. generalize U. generalize (firstn (length (tb_syms told)) (map sy_id (tb_syms T))) (skipn (length (tb_syms told)) (map sy_id (tb_syms T))). clear.
      intros a b N Ia Ib. induction a as [|z a IH]; [exact Ia|]. inversion N as [|? ? N1 N2]; subst. destruct Ia as [->|Ia]; [apply N1, in_or_app; auto|exact (IH N2 Ia)].
Qed.
Lemma in_own y : In y (tb_syms t) -> In (sy_id y) (map sy_id (tb_syms T)) -> ~ In (sy_id y) (map sy_id (tb_syms told)) -> In y own.
Proof.
  intros I IT Nt. assert (J : In (sy_id y) (map sy_id own)).
  { rewrite own_ids. rewrite <- (firstn_skipn (length (tb_syms told)) (map sy_id (tb_syms T))) in IT. apply in_app_or in IT as [IT|IT]; [|exact IT]. rewrite <- told_ids in IT. contradiction. }
  apply in_map_iff in J as (z & Ez & Iz). destruct (own_in z Iz) as (It & _). replace y with z; [exact Iz|].
  pose proof (in_sym_at _ _ U1 I) as A. pose proof (in_sym_at _ _ U1 It) as B. rewrite Ez in B. congruence.
Qed.
Lemma denotes_in tt id : (exists nm b, denotes tt id nm b) <-> In id (map sy_id (tb_syms tt)).
Proof.
  split.
  - intros (nm & b & D). apply denotes_at in D. apply sym_at_in in D as (I & E). rewrite <- E. apply in_map. exact I.
  - intros I. apply in_map_iff in I as (y & E & I). destruct (sym_at tt id) as [z|] eqn:S.
    + destruct (sym_at_in _ _ _ S) as (_ & Ez). exists (sy_name z), (sy_body z). apply denotes_at. rewrite S, <- Ez. destruct z; reflexivity.
    + exfalso. unfold sym_at in S. apply (find_none _ _ S) in I. rewrite E, Nat.eqb_refl in I. discriminate.
Qed.
Lemma own_defined_iff : own_structs_defined told T t <-> forallb struct_defined own = true.
Proof.
  rewrite forallb_forall. split.
  - intros D y I. destruct (own_in y I) as (It & IT & Nt). unfold struct_defined. destruct y as [id nm b]. cbn [sy_body sy_id] in *. destruct b; try reflexivity.
    eapply D; [apply denotes_at; exact (in_sym_at t (mkSym id nm (SyStruct defined fields)) U1 It)|apply denotes_in; exact IT|].
    intros nm' b' Dn. apply Nt. apply denotes_in. eauto.
  - intros D id nm d fs Dn IT Nt. apply denotes_at in Dn. destruct (sym_at_in _ _ _ Dn) as (I & _). refine (D _ (in_own _ I _ _)).
    + apply denotes_in. exact IT.
    + intros J. apply denotes_in in J as (nm' & b' & J). exact (Nt _ _ J).
Qed.
End Slice.

(** Every variable the source declares has a value at the end *)
Lemma own_initialised told T t1 t l : (exists ns, map label (tb_syms T) = map label (tb_syms told) ++ ns) ->
  (exists ns, map label (tb_syms t1) = map label (tb_syms T) ++ ns) -> unique T -> unique t1 ->
  (forall id y, sym_at T id = Some y -> ParserInv.undefined y = false -> exists y', sym_at t1 id = Some y' /\ erase y' = erase y) ->
  same_shape t1 t -> covers told T l -> (forall v, In v l -> inited t v) ->
  forallb sym_initialized (slice (tb_syms t) (length (tb_syms told)) (length (tb_syms T))) = true.
Proof.
  intros Lb (ns & Lb1) U U1 Old Sh Cv Ini. pose proof (shape_unique _ _ Sh U1) as U2. pose proof Sh as (Er & _).
  assert (Lab : map label (tb_syms t) = map label (tb_syms T) ++ ns).
  { rewrite <- Lb1. assert (Q : forall l, map label l = map label (map erase l)).
    { intros k. rewrite map_map. apply map_ext. intros [i n b]. destruct b; reflexivity. }
    rewrite (Q (tb_syms t)), <- Er, <- Q. reflexivity. }
  apply forallb_forall. intros y Iy. destruct (own_in told T t Lb (ex_intro _ ns Lab) U y Iy) as (It & IT & Nt). pose proof (in_sym_at _ _ U2 It) as At.
  apply (denotes_in T) in IT as (nm & b & Dn). apply denotes_at in Dn.
  assert (Vy : forall v, In v (vars_of (sy_id y) (sy_body y)) -> In v (vars T)).
  { destruct (ParserInv.undefined (mkSym (sy_id y) nm b)) eqn:Un.
    - unfold ParserInv.undefined in Un. cbn in Un. destruct b; try discriminate. clear Un.
      assert (K : key (sy_body y) = []).
      { apply sym_at_in in Dn as (I & E0). assert (I2 : In (label (mkSym (sy_id y) nm (SyStruct defined fields))) (map label (tb_syms t))) by (rewrite Lab; apply in_or_app; left; apply in_map; exact I).
        apply in_map_iff in I2 as (z & Ez & Iz). unfold label in Ez. cbn in Ez. injection Ez as Ez1 Ez2 Ez3.
        pose proof (in_sym_at _ _ U2 Iz) as Az. rewrite Ez1, At in Az. injection Az as <-. exact Ez3. }
      intros v Iv. destruct (sy_body y); try contradiction Iv; discriminate K.
    - destruct (Old _ _ Dn Un) as (y1 & A1 & E1). assert (E2 : erase y = erase y1).
      { destruct (sym_at_in _ _ _ A1) as (I1 & Id1). apply (in_map erase) in I1. rewrite Er in I1. apply in_map_iff in I1 as (z & Ez & Iz).
        pose proof (f_equal sy_id Ez) as Ei. cbn in Ei. rewrite Id1 in Ei. pose proof (in_sym_at _ _ U2 Iz) as Az. rewrite Ei, At in Az. injection Az as <-. exact Ez. }
      rewrite E1 in E2. intros v Iv. apply in_flat_map. exists (mkSym (sy_id y) nm b). split; [apply sym_at_in in Dn; tauto|].
      assert (Q : forall z, vars_of (sy_id z) (sy_body z) = vars_of (sy_id (erase z)) (sy_body (erase z))) by (intros [i0 n0 b0]; destruct b0; cbn; rewrite ?map_length; reflexivity).
      rewrite Q in Iv. rewrite Q, <- E2. exact Iv. }
  assert (Q : forall v, In v (vars_of (sy_id y) (sy_body y)) -> (v = RGlobal (sy_id y) \/ exists i, v = RLocal (sy_id y) i) -> inited t v).
  { intros v Iv Qv. destruct (Cv v (Vy v Iv)) as [O|O]; [|apply Ini; exact O]. exfalso. apply Nt. eapply vars_ids; eauto. }
  unfold sym_initialized. destruct (sy_body y) eqn:B; try reflexivity.
  - destruct (Q (RGlobal (sy_id y)) ltac:(left; reflexivity) ltac:(auto)) as (a0 & b0 & i & g & At'). rewrite At in At'. injection At' as ->. cbn in B. congruence.
  - apply forallb_forall. intros x Ix. apply In_nth_error in Ix as (j & Nj).
    assert (Lj : j < length locals) by (apply nth_error_Some; congruence).
    destruct (Q (RLocal (sy_id y) j)) as (x' & Vx & I0); [cbn; apply in_map; apply in_seq; lia|eauto|].
    unfold var_of in Vx. rewrite At in Vx. destruct y as [yi yn yb]. cbn in B. subst yb. cbn in Vx. rewrite Nj in Vx. injection Vx as ->. exact I0.
Qed.

(** What [Tiny_CompileString] does after parsing *)
Lemma body_uses fuel mods file src s0 ss p s1 : parse_program fuel (start_parse (k_tbl s0) src) = COk ss p ->
  run_uses mods ss (set_tbl s0 (ps_tbl p)) = COk tt s1 ->
  compile_body fuel mods file src s0 =
    let first := length (tb_syms (k_tbl s0)) in let last := length (tb_syms (ps_tbl p)) in
    if forallb struct_defined (slice (tb_syms (k_tbl s1)) first last) then
      match compile_state file ss s1 with
      | COk ts s => if forallb sym_initialized (slice (tb_syms (k_tbl s)) first last) then COk ts s else CFail s
      | CFail s => CFail s | CAbort => CAbort | CUB => CUB | CHang => CHang | CFuel => CFuel
      end
    else CFail s1.
Proof.
  intros P R. cbn zeta. unfold compile_body, cbind at 1. unfold cbind at 1. rewrite P. unfold cbind at 1. unfold cbind at 1. rewrite R.
  unfold cbind at 1. cbn [k_tbl set_tbl]. destruct (forallb struct_defined _); [|reflexivity].
  unfold cbind at 1. destruct (compile_state file ss s1) as [ts s| | | | |]; try reflexivity. unfold cbind. destruct (forallb _ _); reflexivity.
Qed.

Lemma used_outcome s0 fuel mods file src a x ss T s1 ts T' : reachable s0 -> plain_source src -> room_after mods s0 file src ->
  (forall m args as_ x b x', mods m args as_ x = COk b x' -> binds x x') ->
  parse_fuel (fst (lex_all src)) <= fuel ->
  tokens src a x -> GrammarStmt.program (k_tbl s0) a x ss T -> uses mods ss (set_tbl s0 T) s1 -> own_structs_defined (k_tbl s0) T (k_tbl s1) ->
  all_typed (k_tbl s1) ss ts T' ->
  (Forall (fine_s T') ts /\ exists s, compile_string fuel mods file src s0 = COk ts s) \/
  (~ Forall (fine_s T') ts /\ exists s, compile_string fuel mods file src s0 = CFail s).
Proof.
  intros R Pl (Rm & Rf) Hm L Tk Pr Us Sd W.
  destruct (proj2 (source_to_program s0 src fuel ss T R ltac:(lia) L) (ex_intro _ a (ex_intro _ x (conj Tk Pr)))) as (p & P & <-).
  destruct (parsed_facts _ _ _ _ _ R P) as (G & Fn & Lb). pose proof (gd_unique _ _ G) as U.
  destruct (binds_inv _ _ (uses_binds _ _ Hm _ _ Us) G) as (Es & Gr). cbn [k_tbl set_tbl] in Gr.
  pose proof (gr_good _ _ _ Gr G) as G1. pose proof (gd_unique _ _ G1) as U1. pose proof (gr_labels _ _ _ _ Gr G) as Lb1.
  assert (Ta : fst (lex_all src) = a) by (unfold tokens in Tk; rewrite Tk; reflexivity).
  assert (Pl' : Forall plain a) by (rewrite <- Ta; exact Pl).
  assert (Fu : tb_func (ps_tbl p) = None).
  { pose proof (reachable_loaded _ R) as Ld. destruct (program_inv _ _ _ _ _ (ld_func _ _ Ld) P) as (Gp & _). transitivity (tb_func (k_tbl s0)); [destruct Gp; assumption|apply Ld]. }
  assert (Old : forall id y, sym_at (ps_tbl p) id = Some y -> ParserInv.undefined y = false -> exists y', sym_at (k_tbl s1) id = Some y' /\ erase y' = erase y).
  { intros id y Y Un. apply (gr_old _ _ _ Gr G id y Y); [rewrite Fu; discriminate|discriminate|exact Un]. }
  assert (Fn1 : fns (k_tbl s1) (flat_map ubodies ss)).
  { revert Fn. apply Forall_impl. intros q (nm & i & ar & lo & re & Y & Li). destruct (Old _ _ Y eq_refl) as ([i1 n1 b1] & Y1 & E1). destruct (sym_at_in _ _ _ Y1) as (_ & Ei). cbn in Ei. subst i1.
    unfold erase in E1. cbn in E1. injection E1 as -> E1. destruct b1; try discriminate. cbn in E1. injection E1. intros. subst. eexists nm, i, _, _, _. split; [exact Y1|].
    pose proof (gr_count _ _ _ _ Gr NFun) as C. cbn in C. lia. }
  assert (Rf' : room file (k_tbl s1)).
  { unfold room, max_strings. destruct file as [f|]; [|exact Logic.I]. right. eapply Rf; eauto. discriminate. }
  pose proof (compile_state_out file ss s1 ts T' G1 (program_lit _ _ _ _ _ Pr Pl') Fn1 Rf' W) as O.
  apply uses_run in Us. unfold compile_string. rewrite (body_uses fuel mods file src s0 ss p s1 P Us). cbn zeta.
  rewrite (proj1 (own_defined_iff _ _ _ Lb Lb1 U U1) Sd). rewrite <- fine_all.
  destruct O as [(Fi & ts1 & s & E & -> & Sh & Ini)|(Fi & s & E)]; rewrite E.
  - left. split; [exact Fi|]. exists s.
    pose proof (shape_trans _ _ _ (proj1 (all_typed_shape _ _ _ _ U1 W)) Sh) as Sh0.
    rewrite (own_initialised _ _ _ _ (flat_map utargets ss) Lb Lb1 U U1 Old Sh0 (program_assigned _ _ _ _ _ Pr)); [reflexivity|].
    intros v Iv. apply Ini. eapply targets_assigned; eauto.
  - right. split; [exact Fi|]. eauto.
Qed.

(** ** C52 *)
Theorem accepted_with_macros : forall s0 fuel mods file src ts, reachable s0 -> plain_source src -> room_after mods s0 file src ->
  (forall m args as_ x b x', mods m args as_ x = COk b x' -> binds x x') ->
  parse_fuel (fst (lex_all src)) <= fuel ->
  (exists s, compile_string fuel mods file src s0 = COk ts s) <-> acceptable_with mods s0 src ts.
Proof.
  intros s0 fuel mods file src ts R Pl Rm Hm L. split.
  - intros (s & E). destruct (compile_parts _ _ _ _ _ _ _ E) as (ss & p & s1 & t1 & Ep & Us & Er & _).
    destruct (proj1 (programs_by_grammar (k_tbl s0) src ss (ps_tbl p)) (ex_intro _ fuel (ex_intro _ p (conj Ep eq_refl)))) as (a & x & Tk & Pr).
    destruct (parsed_facts _ _ _ _ _ R Ep) as (G & Fn & Lb). pose proof (gd_unique _ _ G) as U.
    pose proof (proj1 (uses_run _ _ _ _) Us) as Us'. destruct (binds_inv _ _ (uses_binds _ _ Hm _ _ Us') G) as (Es & Gr). cbn [k_tbl set_tbl] in Gr.
    pose proof (gr_good _ _ _ Gr G) as G1. pose proof (gd_unique _ _ G1) as U1. pose proof (gr_labels _ _ _ _ Gr G) as Lb1.
    apply program_typed_by_rules in Er; [|exact U1].
    assert (Sd : own_structs_defined (k_tbl s0) (ps_tbl p) (k_tbl s1)).
    { apply (own_defined_iff _ _ _ Lb Lb1 U U1). unfold compile_string in E. rewrite (body_uses fuel mods file src s0 ss p s1 Ep Us) in E. cbn zeta in E.
      destruct (forallb struct_defined _); [reflexivity|discriminate]. }
    destruct (used_outcome s0 fuel mods file src a x ss (ps_tbl p) s1 ts t1 R Pl Rm Hm L Tk Pr Us' Sd Er) as [(Fi & _)|(_ & s' & E')]; [|congruence].
    exists a, x, ss, (ps_tbl p), s1, t1. auto 10.
  - intros (a & x & ss & T & s1 & T' & Tk & Pr & Us & Sd & W & Fi).
    destruct (used_outcome s0 fuel mods file src a x ss T s1 ts T' R Pl Rm Hm L Tk Pr Us Sd W) as [(_ & H)|(N & _)]; [exact H|contradiction].
Qed.
Print Assumptions accepted_with_macros.

(** After type checking the compiler answers *)
Theorem typed_uses_answer : forall s0 fuel mods file src a x ss T s1 ts T', reachable s0 -> plain_source src -> room_after mods s0 file src ->
  (forall m args as_ x b x', mods m args as_ x = COk b x' -> binds x x') ->
  parse_fuel (fst (lex_all src)) <= fuel ->
  tokens src a x -> GrammarStmt.program (k_tbl s0) a x ss T -> uses mods ss (set_tbl s0 T) s1 -> own_structs_defined (k_tbl s0) T (k_tbl s1) ->
  all_typed (k_tbl s1) ss ts T' ->
  (exists s, compile_string fuel mods file src s0 = COk ts s) \/ exists s, compile_string fuel mods file src s0 = CFail s.
Proof. intros. destruct (used_outcome s0 fuel mods file src a x ss T s1 ts T') as [(_ & ?)|(_ & ?)]; auto. Qed.
Print Assumptions typed_uses_answer.

(** The library's array macro is one of these macros *)
Theorem array_macro_binds : forall addr n args as_ s b s', array_macro addr n args as_ s = COk b s' -> binds s s'.
Proof.
  intros addr n args as_ s b s' M. unfold array_macro in M. destruct args as [|E [|]]; try (injection M as _ <-; apply b_done). destruct as_ as [A|]; try (injection M as _ <-; apply b_done).
  destruct (find_type_symbol (k_tbl s) A); [injection M as _ <-; apply b_done|]. destruct (find_type_symbol (k_tbl s) E); [|injection M as _ <-; apply b_done].
  apply cbind_ok in M as ([] & s1 & E1 & M). eapply b_host; [exact E1|]. apply cbind_ok in M as ([] & s2 & B & M). injection M as _ <-. clear E1.
  revert s1 B. induction (array_sigs A E _ _) as [|[sig f] l IH]; intros s1 B; cbn [bind_all] in B.
  - injection B as <-. apply b_done.
  - apply cbind_ok in B as ([] & s3 & E3 & B). eapply b_host; [exact E3|]. apply IH. exact B.
Qed.
Print Assumptions array_macro_binds.

(** ** The conditions hold of a program that makes an array type and uses it *)
Definition uses_fuel : nat := Eval vm_compute in parse_fuel (fst (lex_all lib_src)).
Definition uses_ts : list tstmt := Eval vm_compute in match compile_string uses_fuel lib_mods None lib_src lib_s1 with COk ts _ => ts | _ => [] end.
Definition uses_s2 : kst := Eval vm_compute in match compile_string uses_fuel lib_mods None lib_src lib_s1 with COk _ s => s | _ => init_kst end.
Lemma uses_compiles : compile_string uses_fuel lib_mods None lib_src lib_s1 = COk uses_ts uses_s2.
Proof. vm_cast_no_check (eq_refl (COk uses_ts uses_s2)). Qed.
Lemma lib_mods_binds m args as_ x b x' : lib_mods m args as_ x = COk b x' -> binds x x'.
Proof. unfold lib_mods. destruct (text_eqb m (text_of "array")); [apply array_macro_binds|discriminate]. Qed.
Example uses_case : reachable lib_s1 /\ plain_source lib_src /\ room_after lib_mods lib_s1 None lib_src /\ uses_ts <> [] /\
  acceptable_with lib_mods lib_s1 lib_src uses_ts.
Proof.
  assert (R : reachable lib_s1) by apply lib_reachable.
  assert (Pl : plain_source lib_src).
  { unfold plain_source. apply Forall_forall. intros t I K Q.
    assert (B : forallb (fun t => negb ((tk_i t =? - 2 ^ 31)%Z)) (fst (lex_all lib_src)) = true) by (vm_cast_no_check (eq_refl true)).
    rewrite forallb_forall in B. specialize (B t I). rewrite Q in B. discriminate. }
  assert (Rm : room_after lib_mods lib_s1 None lib_src).
  { split; [apply Nat.leb_le; vm_cast_no_check (eq_refl true)|intros N; congruence]. }
  split; [exact R|]. split; [exact Pl|]. split; [exact Rm|]. split; [discriminate|].
  apply (accepted_with_macros lib_s1 uses_fuel lib_mods None lib_src uses_ts R Pl Rm lib_mods_binds).
  - apply Nat.leb_le. vm_cast_no_check (eq_refl true).
  - exists uses_s2. exact uses_compiles.
Qed.
