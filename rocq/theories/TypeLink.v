(** * The compiled program is typed *)
From Coq Require Import Permutation.
From Verif Require Import Base Token Lexer Values Heap Code CodeSpec CodeProofs Syntax VM VMBasics VMSpec VMInv VMFrame VMProofs
  Symbols Parser Resolve Compile Layout LayoutProofs CompileProofs SimExpr TableInv ParserInv Host LayTable Whole Props_Compile HeightSpec HeightProofs Props_Height
  TypeSpec TypeCode TypeVM.
Local Open Scope nat_scope.

Lemma code_typing {H} s (callees : nat -> list value -> fprog H) props :
  ready s -> Forall (plain_s (k_tbl s) false) (k_hist s) -> Forall (static_s (k_tbl s)) (k_hist s) ->
  Forall (wt_s (k_tbl s) None) (k_hist s) -> struct_names (k_tbl s) ->
  (forall id fs, sfields (k_tbl s) id = Some fs -> NoDup (map fd_name fs)) ->
  exists st, typing (k_tbl s) (k_code s) (m_fpcs (machine_of s callees props)) st.
Proof.
  intros R P Sa W SN HN. destruct (ready_laid _ R) as (b & b' & p & L & Ha & _). destruct (ready_loaded _ R) as (Ld & Fc & Fg & Ff & Fx).
  pose proof (ld_good _ _ Ld) as G. set (t := k_tbl s) in *. set (C := k_code s) in *.
  assert (HK : forall y i a l r, In y (tb_syms t) -> sy_body y = SyFunc i a l r -> (Z.of_nat i < 2^32)%Z).
  { intros y i a l r I B. pose proof (count_of _ _ (NFun, i) G I ltac:(rewrite B; left; reflexivity)) as X. cbn in X. lia. }
  assert (HX : forall y i a va r c, In y (tb_syms t) -> sy_body y = SyForeign i a va r c -> (Z.of_nat i < 2^32)%Z).
  { intros y i a va r c I B. pose proof (count_of _ _ (NForeign, i) G I ltac:(rewrite B; left; reflexivity)) as X. cbn in X. lia. }
  assert (HG : forall y i b g, In y (tb_syms t) -> sy_body y = SyGlobal i b g -> (Z.of_nat i < 2^32)%Z).
  { intros y i a g I B. pose proof (count_of _ _ (NGlob, i) G I ltac:(rewrite B; left; reflexivity)) as X. cbn in X. lia. }
  assert (HF : forall id fs, sfields t id = Some fs -> length fs <= 255).
  { intros id fs E. unfold sfields in E. destruct (sym_at t id) as [[yi yn []]|] eqn:Y; try discriminate.
    destruct defined; try discriminate. injection E as ->. apply (good_at _ _ _ _ G Y). }
  assert (HP : forall f nm i a l r, sym_at t f = Some (mkSym f nm (SyFunc i a l r)) -> positions 0 l /\ positions (Z.of_nat (length a)) a).
  { intros f nm i a l r Y. exact (good_at _ _ _ _ G Y). }
  assert (Sg : TypeCode.tseg t C (entry t s) None (fun _ _ => False) (map fst (flat_map bodies (k_hist s))) 0 b (lbase t None, None) (lbase t None, None)).
  { eapply TypeCode.block_seg; [|exact L| | | | | |apply TypeCode.no_exits].
    - apply Forall_forall. intros x _. apply TypeCode.stmt_seg; auto. apply (gd_unique _ _ G).
    - apply all_forall. exact P.
    - apply all_forall. exact W.
    - apply all_forall. exact Sa.
    - apply (ld_refs _ _ Ld).
    - apply (ld_bodies _ _ Ld). }
  destruct Sg as (m & I0 & St & Fn). change (lbase t None) with (@nil tag) in *.
  exists (fun pc c k => m pc c k \/ (pc = b /\ c = None /\ k = ([], None))). constructor.
  - destruct I0 as (B & (S1 & S2) & I0). destruct B as [l r]. cbn in S1, S2. inversion S1; subst l.
    assert (r = None) by (destruct S2; auto). subst r. destruct I0 as [I0|(E & _)]; auto.
  - intros f nm i a l r Y. destruct (sym_at_in _ _ _ Y) as (Iy & _).
    assert (If : In f (map fst (flat_map bodies (k_hist s)))).
    { pose proof (ld_funs _ _ Ld) as Pm. rewrite app_nil_r in Pm. eapply Permutation_in; [exact Pm|].
      unfold funs. apply in_flat_map. exists (mkSym f nm (SyFunc i a l r)). split; auto. cbn. auto. }
    pose proof (proj1 (Forall_forall _ _) Fn _ If) as (e & (j & Ej & Nj) & M0).
    unfold findex in Ej. rewrite Y in Ej. injection Ej as <-. exists e. split; [|auto]. cbn [machine_of m_fpcs]. rewrite nth_error_map, Nj. reflexivity.
  - intros pc c k [Hk|(-> & -> & ->)].
    + destruct (St _ _ _ Hk) as (i & n & D & Sp). exists i, n. split; auto. eapply TypeCode.step_up; [|exact Sp].
      intros pc' D' [K|(-> & [(-> & ->)|[]])]; apply up_in; auto.
    + exists IHalt, b'. split; [exact Ha|]. cbn. auto.
Qed.
