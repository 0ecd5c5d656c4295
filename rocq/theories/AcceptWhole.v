(** * When a source is accepted: the stages together *)
From Verif Require Import Base Token Lexer Values Strings Code FileLine Syntax Symbols Parser Resolve Compile Layout LayoutProofs CompileProofs TableInv.
From Verif Require Import ParserInv ResolveInv Host Whole Grammar GrammarStmt Props_Parser Props_Stmt Props_Names Props_Typing.
From Verif Require Import TypingProofs TypingExpr TypingStmt Typing Accept AcceptCode AcceptStmt AcceptReady AcceptGrammar AcceptRoom.
Local Open Scope nat_scope.

(** ** [CompileState] *)
Lemma build_foreign_some ss : forall f, (forall y i a va r c, In y ss -> sy_body y = SyForeign i a va r c -> i < length f) ->
  exists f', build_foreign ss f = Some f'.
Proof.
  induction ss as [|[id n b] ss IH]; intros f H; cbn [build_foreign]; [eauto|].
  destruct b; try (apply IH; intros; eapply H; [right; eassumption|eassumption]).
  destruct (Nat.ltb_spec index (length f)) as [L|L].
  - apply IH. intros y i a va r c Iy B. rewrite update_length. eapply H; [right; exact Iy|exact B].
  - exfalso. specialize (H _ _ _ _ _ _ (or_introl eq_refl) eq_refl). lia.
Qed.

Lemma ready_ss_shape t t' ss : same_shape t t' -> ready_ss t ss -> ready_ss t' ss.
Proof. intros E. induction ss as [|s ss IH]; [auto|]. intros (A & B). split; [eapply ready_s_shape; eauto|auto]. Qed.

Lemma compile_state_out file ss s ts T' : let T := k_tbl s in good full T -> lit_ss ss -> fns T (flat_map ubodies ss) -> room file T ->
  all_typed T ss ts T' ->
  out (fine_ss T' ts) (compile_state file ss s)
    (fun r s' => r = ts /\ same_shape T' (k_tbl s') /\ forall v, In v (flat_map AcceptStmt.assigned ts) -> inited (k_tbl s') v).
Proof.
  intros T G L F Rm W. pose proof (gd_unique _ _ G) as U. destruct (all_typed_shape _ _ _ _ U W) as (Sh & St).
  pose proof (shape_good _ _ Sh G) as G'. pose proof (gd_unique _ _ G') as U'.
  assert (Rd : ready_ss T' ts) by (eapply ready_ss_shape; [exact Sh|]; eapply stmts_ready; eauto; apply good_small; exact G).
  pose proof (proj2 (program_typed_by_rules ss T ts T' U) W) as Rs.
  unfold compile_state, cbind at 1. unfold cbind at 1. unfold cbind at 1. unfold kon_tbl. cbn [k_tbl set_code]. fold T. rewrite Rs.
  unfold cbind at 1. unfold cbind at 1. unfold cbind at 1. cbn [k_tbl set_tbl set_fpcs set_ftab k_ftab k_fpcs set_code].
  destruct (build_foreign_some (tb_syms T') (if (0 <? tb_nforeign T') then resize (k_ftab s) (tb_nforeign T') else k_ftab s)) as (f & Bf).
  { intros y i a va r c Iy B. pose proof (count_of _ _ (NForeign, i) G' Iy ltac:(rewrite B; left; reflexivity)) as C. cbn in C.
    destruct (Nat.ltb_spec 0 (tb_nforeign T')); [rewrite resize_length; exact C|lia]. }
  rewrite Bf. set (s1 := set_ftab _ f).
  assert (K1 : K T' file s1).
  { constructor; unfold s1; cbn [k_tbl set_tbl set_fpcs set_ftab k_ftab k_fpcs set_code].
    - apply shape_refl.
    - destruct (Nat.ltb_spec 0 (tb_nfun T')); [rewrite resize_length; lia|lia].
    - unfold room in *. destruct file; [|exact Logic.I]. rewrite St. exact Rm. }
  eapply out_last; [apply (runs_program T' file U' ts Rd s1 K1)|]. cbn beta. intros _ s2 ((K2 & _ & _) & In2).
  apply out_ok; [exact Logic.I|]. cbn [set_code set_hist k_tbl]. split; [reflexivity|]. split; [apply K2|exact In2].
Qed.

(** ** The final check of [Tiny_CompileString] finds nothing *)
Lemma vars_erase t t' : map erase (tb_syms t) = map erase (tb_syms t') -> vars t = vars t'.
Proof.
  assert (E : forall l, flat_map (fun y => vars_of (sy_id y) (sy_body y)) l = flat_map (fun y => vars_of (sy_id y) (sy_body y)) (map erase l)).
  { induction l as [|[i n b] l IH]; [reflexivity|]. cbn [flat_map map]. f_equal; [|exact IH]. unfold erase. destruct b; cbn; rewrite ?map_length; reflexivity. }
  intros H. unfold vars. rewrite E, H, <- E. reflexivity.
Qed.
Lemma ids_erase l : map sy_id (map erase l) = map sy_id l.
Proof. rewrite map_map. apply map_ext. intros [i n b]. reflexivity. Qed.
Lemma vars_ids t v : In v (vars t) -> forall id, (v = RGlobal id \/ exists i, v = RLocal id i) -> In id (map sy_id (tb_syms t)).
Proof.
  intros I id Q. apply in_flat_map in I as (y & I & J). apply in_map_iff. exists y. split; [|exact I].
  destruct (sy_body y); try contradiction J; cbn in J.
  - destruct J as [<-|[]]. destruct Q as [[= ->]|(i & [=])]. reflexivity.
  - apply in_map_iff in J as (j & <- & _). destruct Q as [[=]|(i & [= -> _])]. reflexivity.
Qed.
Lemma all_initialised told T t l : unique T -> (exists ns, map label (tb_syms T) = map label (tb_syms told) ++ ns) -> same_shape T t ->
  covers told T l -> (forall v, In v l -> inited t v) -> forallb sym_initialized (skipn (length (tb_syms told)) (tb_syms t)) = true.
Proof.
  intros U (ns & Lb) Sh Cv In1. apply forallb_forall. intros y Iy. pose proof Sh as (Er & _). pose proof (shape_unique _ _ Sh U) as U'.
  assert (Ids : map sy_id (tb_syms t) = map sy_id (tb_syms told) ++ map (fun x => fst (fst x)) ns).
  { rewrite <- (ids_erase (tb_syms t)), <- Er, ids_erase. apply (f_equal (map (fun x => fst (fst x)))) in Lb. rewrite map_app, !map_map in Lb. exact Lb. }
  assert (Ni : ~ In (sy_id y) (map sy_id (tb_syms told))).
  { assert (J : In (sy_id y) (skipn (length (tb_syms told)) (map sy_id (tb_syms t)))) by (rewrite skipn_map; apply in_map; exact Iy).
    rewrite Ids, skipn_app, skipn_all2 in J by (rewrite map_length; lia). rewrite map_length, Nat.sub_diag in J. cbn in J.
    unfold unique in U'. rewrite Ids in U'. intros C. revert J. clear - U' C. intros J.
    induction (map sy_id (tb_syms told)) as [|z a IH]; [exact C|]. inversion U' as [|? ? N D]; subst. destruct C as [->|C]; [apply N, in_or_app; auto|exact (IH D C)]. }
  assert (Iy' : In y (tb_syms t)) by (rewrite <- (firstn_skipn (length (tb_syms told)) (tb_syms t)); apply in_or_app; auto).
  pose proof (in_sym_at _ _ U' Iy') as At.
  assert (Q : forall v, In v (vars t) -> (v = RGlobal (sy_id y) \/ exists i, v = RLocal (sy_id y) i) -> inited t v).
  { intros v Iv Qv. rewrite <- (vars_erase _ _ Er) in Iv. destruct (Cv v Iv) as [O|O]; [|apply In1; exact O]. exfalso. apply Ni. eapply vars_ids; eauto. }
  assert (Vy : forall v, In v (vars_of (sy_id y) (sy_body y)) -> In v (vars t)) by (intros v Iv; apply in_flat_map; eauto).
  unfold sym_initialized. destruct (sy_body y) eqn:B; try reflexivity.
  - destruct (Q (RGlobal (sy_id y)) ltac:(apply Vy; left; reflexivity) ltac:(auto)) as (a & b & i & g & At'). rewrite At in At'. injection At' as ->. cbn in B. congruence.
  - apply forallb_forall. intros x Ix. apply In_nth_error in Ix as (j & Nj).
    assert (Lj : j < length locals) by (apply nth_error_Some; congruence).
    destruct (Q (RLocal (sy_id y) j)) as (x' & Vx & Ini); [apply Vy; cbn; apply in_map; apply in_seq; lia|eauto|].
    unfold var_of in Vx. rewrite At in Vx. destruct y as [yi yn yb]. cbn in B. subst yb. cbn in Vx. rewrite Nj in Vx. injection Vx as ->. exact Ini.
Qed.

(** ** [Tiny_CompileString] *)
Definition new_defined (s : list sym) := forallb struct_defined s.
Lemma slice_all {A} (l : list A) i : slice l i (length l) = skipn i l.
Proof. unfold slice. apply firstn_all2. rewrite skipn_length. lia. Qed.
Lemma no_uses_run mods ss s : Forall (fun st => match st with SUse _ _ _ _ => False | _ => True end) ss -> run_uses mods ss s = COk tt s.
Proof. induction 1 as [|st ss H F IH]; [reflexivity|]. destruct st; try contradiction; exact IH. Qed.
Lemma body_parsed fuel mods file src s0 ss p : parse_program fuel (start_parse (k_tbl s0) src) = COk ss p ->
  Forall (fun st => match st with SUse _ _ _ _ => False | _ => True end) ss ->
  compile_body fuel mods file src s0 =
    let first := length (tb_syms (k_tbl s0)) in let s1 := set_tbl s0 (ps_tbl p) in
    if forallb struct_defined (skipn first (tb_syms (ps_tbl p))) then
      match compile_state file ss s1 with
      | COk ts s => if forallb sym_initialized (slice (tb_syms (k_tbl s)) first (length (tb_syms (ps_tbl p)))) then COk ts s else CFail s
      | CFail s => CFail s | CAbort => CAbort | CUB => CUB | CHang => CHang | CFuel => CFuel
      end
    else CFail s1.
Proof.
  intros P F. cbn zeta. unfold compile_body, cbind at 1. unfold cbind at 1. rewrite P. unfold cbind at 1. unfold cbind at 1. rewrite (no_uses_run mods ss _ F).
  unfold cbind at 1. cbn [k_tbl set_tbl]. rewrite slice_all. destruct (forallb struct_defined _); [|reflexivity].
  unfold cbind at 1. destruct (compile_state file ss _) as [ts s| | | | |]; try reflexivity. unfold cbind. destruct (forallb _ _); reflexivity.
Qed.

(** What is known of the table a source without surprises leaves *)
Lemma parsed_facts s0 fuel src ss p : reachable s0 -> parse_program fuel (start_parse (k_tbl s0) src) = COk ss p ->
  good full (ps_tbl p) /\ fns (ps_tbl p) (flat_map ubodies ss) /\ exists ns, map label (tb_syms (ps_tbl p)) = map label (tb_syms (k_tbl s0)) ++ ns.
Proof.
  intros R P. pose proof (reachable_loaded _ R) as L. destruct (program_inv _ _ _ _ _ (ld_func _ _ L) P) as (Gr & _).
  pose proof (gr_good _ _ _ Gr (ld_good _ _ L)) as G. split; [exact G|]. split; [|exact (gr_labels _ _ _ _ Gr (ld_good _ _ L))].
  apply Forall_forall. intros q Iq. assert (If : In (fst q) (funs (tb_syms (ps_tbl p)))) by (rewrite (gr_funs _ _ _ Gr (ld_good _ _ L)); apply in_or_app; right; apply in_map; exact Iq).
  destruct (fun_symbol _ _ G If) as (n & i & a & l & r & Y & _). exists n, i, a, l, r. split; [exact Y|].
  apply (findex_count _ (fst q)); [exact G|]. unfold findex. rewrite Y. reflexivity.
Qed.
