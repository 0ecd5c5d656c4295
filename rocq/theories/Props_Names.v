(** * C41: what the host finds by name; C19 from the source text to the run *)
From Verif Require Import Base Token Lexer Values Heap Code Syntax VM VMSpec Source Symbols Parser Resolve Layout SimExpr
  Compile CompileProofs TableInv ParserInv Host LayTable Whole Grammar GrammarStmt Props_Compile Props_Stmt.
Local Open Scope nat_scope.

(** ** Functions *)
Definition is_tiny (name : text) (y : sym) : Prop := sy_name y = name /\ exists i a l r, sy_body y = SyFunc i a l r.
Definition is_global (name : text) (y : sym) : Prop := sy_name y = name /\ exists i b g, sy_body y = SyGlobal i b g.

Lemma ready_good s : ready s -> good full (k_tbl s).
Proof. intros (n & mods & file & src & ts & s0 & R & Hm & E & F). destruct (compile_reachable _ _ _ _ _ _ _ R Hm E) as (L & _). apply L. Qed.
Lemma ready_load s : ready s -> loaded [] s.
Proof. intros (n & mods & file & src & ts & s0 & R & Hm & E & F). apply (compile_reachable _ _ _ _ _ _ _ R Hm E). Qed.

(** [Tiny_GetFunctionIndex] answers with the number of a function of that name
    whose body was compiled, or with -1 if no function has that name. *)
Theorem function_lookup : forall s name, ready s ->
  (get_function_index s name = (-1)%Z /\ forall y, In y (tb_syms (k_tbl s)) -> ~ is_tiny name y) \/
  (exists y i params locals ret body, get_function_index s name = Z.of_nat i /\ In y (tb_syms (k_tbl s)) /\ sy_name y = name /\
     sy_body y = SyFunc i params locals ret /\ In (sy_id y, body) (flat_map bodies (k_hist s))).
Proof.
  intros s name R. unfold get_function_index. destruct (find _ _) as [[id nm b]|] eqn:F.
  - right. apply find_some in F as (I & Q). cbn [sy_body sy_name] in Q. destruct b as [| |i a l r| | | | |]; try discriminate Q.
    apply text_eqb_eq in Q. subst nm. pose proof (ready_load _ R) as L.
    assert (If : In id (map fst (flat_map bodies (k_hist s)))).
    { pose proof (ld_funs _ _ L) as Pm. rewrite app_nil_r in Pm. eapply Permutation.Permutation_in; [exact Pm|].
      unfold funs. apply in_flat_map. exists (mkSym id name (SyFunc i a l r)). split; auto. left. reflexivity. }
    apply in_map_iff in If as ([f body] & <- & If). exists (mkSym f name (SyFunc i a l r)), i, a, l, r, body. auto 10.
  - left. split; auto. intros y I (N & i & a & l & r & B). apply (find_none _ _ F) in I. rewrite B, N in I.
    rewrite text_eqb_refl in I. discriminate.
Qed.

(** Different names, different numbers. *)
Theorem function_index_injective : forall s a b, ready s -> (0 <= get_function_index s a)%Z -> get_function_index s a = get_function_index s b -> a = b.
Proof.
  intros s a b R P E. destruct (function_lookup s a R) as [(Q & _)|(y & i & p & l & r & bd & Q & I & N & B & _)]; [lia|].
  destruct (function_lookup s b R) as [(Q' & _)|(y' & i' & p' & l' & r' & bd' & Q' & I' & N' & B' & _)]; [lia|].
  assert (i = i') by lia. subst i'. rewrite <- N, <- N'. f_equal.
  apply (keys_unique _ (gd_keys _ _ (ready_good _ R)) y y' (NFun, i)); auto; [rewrite B|rewrite B']; left; reflexivity.
Qed.

(** A call by the host of the function found by name runs the function a script
    calls by that name, unless the script's name means a foreign function. *)
Lemma find_weaker {A} (p q : A -> bool) l x : (forall y, q y = true -> p y = true) -> find p l = Some x -> q x = true -> find q l = Some x.
Proof.
  intros W. induction l as [|y l IH]; cbn; [discriminate|]. destruct (p y) eqn:P.
  - intros [= ->] Q. rewrite Q. reflexivity.
  - intros F Q. destruct (q y) eqn:Qy; [apply W in Qy; congruence|]. auto.
Qed.
Theorem call_by_name : forall {H} s (callees : nat -> list value -> fprog H) name y i params locals ret, ready s ->
  reference_function (k_tbl s) name = Some y -> sy_body y = SyFunc i params locals ret ->
  get_function_index s name = Z.of_nat i /\
  let P := program_of s callees in
  forall n d h args st, h + length args <= p_room P ->
    call_back P (enter_fn P n) d h (get_function_index s name) args st = Source.call_sym P (enter_fn P n) d (h + length args) y args st.
Proof.
  intros H s callees name y i params locals ret R F B.
  assert (G : get_function_index s name = Z.of_nat i).
  { unfold get_function_index. unfold reference_function in F. pose proof (find_some _ _ F) as (_ & Fn). unfold is_function in Fn. rewrite B in Fn.
    erewrite (find_weaker (is_function name)); [|  |exact F|].
    - destruct y as [id nm b]. cbn in B. subst b. reflexivity.
    - intros z. unfold is_function. destruct (sy_body z); auto; discriminate.
    - rewrite B. exact Fn. }
  split; [exact G|]. intros P n d h args st Le. unfold call_back, Source.call_sym. rewrite G, B.
  destruct (Z.ltb_spec (Z.of_nat i) 0); [lia|]. destruct (Nat.leb_spec (h + length args) (p_room P)); [|lia].
  unfold function_no. cbn [P program_of p_tbl].
  destruct (find _ (tb_syms (k_tbl s))) as [z|] eqn:Fz.
  - f_equal. apply find_some in Fz as (Iz & Bz). destruct (sy_body z) eqn:Sz; try discriminate. apply find_some in F as (Iy & _).
    symmetry. apply (keys_unique _ (gd_keys _ _ (ready_good _ R)) y z (NFun, i)); auto; [rewrite B|rewrite Sz]; left; auto. f_equal. lia.
  - apply find_some in F as (Iy & _). apply (find_none _ _ Fz) in Iy. rewrite B, Z.eqb_refl in Iy. discriminate.
Qed.
Print Assumptions call_by_name.

(** ** Globals *)
Theorem global_lookup : forall s name, ready s ->
  (get_global_index s name = (-1)%Z /\ forall y, In y (tb_syms (k_tbl s)) -> ~ is_global name y) \/
  (exists y i b g, get_global_index s name = Z.of_nat i /\ i < tb_nglob (k_tbl s) /\ In y (tb_syms (k_tbl s)) /\ sy_name y = name /\ sy_body y = SyGlobal i b g).
Proof.
  intros s name R. unfold get_global_index. destruct (find _ _) as [[id nm b]|] eqn:F.
  - right. apply find_some in F as (I & Q). cbn [sy_body sy_name] in Q. destruct b as [i b g| | | | | | |]; try discriminate Q.
    apply text_eqb_eq in Q. subst nm. exists (mkSym id name (SyGlobal i b g)), i, b, g.
    pose proof (count_of _ _ (NGlob, i) (ready_good _ R) I ltac:(left; reflexivity)) as X. cbn in X. auto 10.
  - left. split; auto. intros y I (N & i & b & g & B). apply (find_none _ _ F) in I. rewrite B, N in I.
    rewrite text_eqb_refl in I. discriminate.
Qed.
Theorem global_index_injective : forall s a b, ready s -> (0 <= get_global_index s a)%Z -> get_global_index s a = get_global_index s b -> a = b.
Proof.
  intros s a b R P E. destruct (global_lookup s a R) as [(Q & _)|(y & i & p & l & Q & _ & I & N & B)]; [lia|].
  destruct (global_lookup s b R) as [(Q' & _)|(y' & i' & p' & l' & Q' & _ & I' & N' & B')]; [lia|].
  assert (i = i') by lia. subst i'. rewrite <- N, <- N'. f_equal.
  apply (keys_unique _ (gd_keys _ _ (ready_good _ R)) y y' (NGlob, i)); auto; [rewrite B|rewrite B']; left; reflexivity.
Qed.
(** The variable found by name is the one a script means by that name outside
    functions. *)
Theorem global_by_name : forall s name id, ready s -> global_ref (k_tbl s) name = Some (RGlobal id) ->
  exists i, get_global_index s name = Z.of_nat i /\ gidx (k_tbl s) id = Some i /\ i < tb_nglob (k_tbl s).
Proof.
  intros s name id R G. unfold global_ref in G. destruct (find _ _) as [y|] eqn:F; [|discriminate]. cbn in G.
  pose proof (find_some _ _ F) as (I & V). unfold value_ref in G. unfold is_value_sym in V.
  destruct (sy_body y) as [i b g| | | | | | |] eqn:B; try discriminate. injection G as <-.
  exists i. split; [|split].
  - unfold get_global_index. erewrite (find_weaker (is_value_sym name)); [| |exact F|].
    + destruct y as [id nm bd]. cbn in B. subst bd. reflexivity.
    + intros z. unfold is_value_sym. destruct (sy_body z); auto; discriminate.
    + rewrite B. exact V.
  - unfold gidx. rewrite (in_sym_at _ _ (gd_unique _ _ (ready_good _ R)) I). destruct y as [id nm bd]. cbn in B. subst bd. reflexivity.
  - exact (count_of _ _ (NGlob, i) (ready_good _ R) I ltac:(rewrite B; left; reflexivity)).
Qed.
Print Assumptions global_by_name.

(** ** From the source text to the run *)

(** The statements a compile adds to the meaning of the state are those it
    returns, unless a macro compiles as well. *)
Lemma bind_inv {S A B} (m : S -> cres S A) (f : A -> S -> cres S B) s b s' : cbind m f s = COk b s' -> exists a s1, m s = COk a s1 /\ f a s1 = COk b s'.
Proof. unfold cbind. destruct (m s) as [a s1| | | | |]; try discriminate. eauto. Qed.
Lemma uses_hist mods ss : (forall m args as_ x b x', mods m args as_ x = COk b x' -> k_hist x' = k_hist x) ->
  forall s u s', run_uses mods ss s = COk u s' -> k_hist s' = k_hist s.
Proof.
  intros Hm. induction ss as [|st ss IH]; intros s u s' E; cbn [run_uses] in E; [injection E as _ <-; reflexivity|].
  destruct st; try (exact (IH _ _ _ E)). apply bind_inv in E as (a & s1 & E1 & E). rewrite (IH _ _ _ E).
  destruct (existsb _ _); [|discriminate]. destruct (128 <? _); [discriminate|]. apply bind_inv in E1 as (b & s2 & E1 & E2).
  destruct b; [|discriminate]. injection E2 as _ <-. exact (Hm _ _ _ _ _ _ E1).
Qed.
Lemma compile_parts n mods file src ts s s' : compile_string n mods file src s = COk ts s' ->
  exists ss p s1 t1, parse_program n (start_parse (k_tbl s) src) = COk ss p /\ run_uses mods ss (set_tbl s (ps_tbl p)) = COk tt s1 /\
    resolve_all ss (k_tbl s1) = COk ts t1 /\ k_hist s' = k_hist s1 ++ ts.
Proof.
  unfold compile_string. destruct (compile_body n mods file src s) as [x y| | | | |] eqn:E; try discriminate. intros [= -> ->].
  unfold compile_body in E. apply bind_inv in E as (a & s1 & [= <- <-] & E). apply bind_inv in E as (ss & s2 & E1 & E).
  destruct (parse_program n (start_parse (k_tbl s) src)) as [ss0 p| | | | |] eqn:Ep; try discriminate. injection E1 as -> <-.
  apply bind_inv in E as (la & s3 & [= <- <-] & E). apply bind_inv in E as (u & s4 & Eu & E). destruct u.
  apply bind_inv in E as (u & s5 & Es & E). destruct (forallb _ _); [|discriminate]. injection Es as <- <-.
  apply bind_inv in E as (ts0 & s6 & Ec & E). apply bind_inv in E as (u & s7 & Es & E). destruct (forallb _ _); [|discriminate]. injection Es as <- <-.
  injection E as -> ->. exists ss, p, s4. unfold compile_state in Ec.
  apply bind_inv in Ec as (h & s7 & [= <- <-] & E). apply bind_inv in E as (u & s7 & [= <- <-] & E).
  apply bind_inv in E as (ts0 & s8 & Er & E). unfold kon_tbl in Er. cbn [k_tbl set_code] in Er.
  destruct (resolve_all ss (k_tbl s4)) as [ts1 t1| | | | |] eqn:R; try discriminate. injection Er as <- <-.
  apply bind_inv in E as (u & s9 & _ & E). apply bind_inv in E as (u1 & s10 & _ & E). apply bind_inv in E as (u2 & s11 & _ & E).
  apply bind_inv in E as (u3 & s12 & _ & E). apply bind_inv in E as (u4 & s13 & _ & E). apply bind_inv in E as (u5 & s14 & Eh & E).
  injection Eh as _ <-. injection E as -> <-. exists t1. auto.
Qed.
Theorem compile_adds_its_statements : forall n mods file src ts s s',
  (forall m args as_ x b x', mods m args as_ x = COk b x' -> k_hist x' = k_hist x) ->
  compile_string n mods file src s = COk ts s' -> k_hist s' = k_hist s ++ ts.
Proof.
  intros n mods file src ts s s' Hm E. destruct (compile_parts _ _ _ _ _ _ _ E) as (ss & p & s1 & t1 & _ & U & _ & ->).
  rewrite (uses_hist _ _ Hm _ _ _ U). reflexivity.
Qed.

Lemma no_use_tokens : forall T a x ss T', program T a x ss T' -> Forall (fun t => tk t <> USE) a ->
  Forall (fun st => match st with SUse _ _ _ _ => False | _ => True end) ss.
Proof.
  induction 1 as [T x K|T a T1 b x ss T' S P IH|T a st T1 b x ss T' S P IH]; intros F; [constructor| |]; apply Forall_app in F as (Fa & Fb); [auto|].
  constructor; [|auto]. destruct S; auto. inversion Fa; congruence.
Qed.
Lemma no_uses mods ss : Forall (fun st => match st with SUse _ _ _ _ => False | _ => True end) ss -> forall s u s', run_uses mods ss s = COk u s' -> s' = s.
Proof.
  induction 1 as [|st ss H F IH]; intros s u s' E; cbn [run_uses] in E; [injection E as _ <-; reflexivity|]. destruct st; try contradiction; exact (IH _ _ _ E).
Qed.

(** A text without [use], the first one compiled into a state: its tokens spell a
    program (C39), whose statements with their types ([resolve_all]) say what the
    thread does, from its start to its end. *)
Theorem source_runs : forall {H} s0 fuel mods file src ts s (callees : nat -> list value -> fprog H) props w n,
  reachable s0 -> k_hist s0 = [] ->
  (forall m args as_ x b x', mods m args as_ x = COk b x' -> steps x x') ->
  Forall (fun t => tk t <> USE) (fst (lex_all src)) ->
  compile_string fuel mods file src s0 = COk ts s -> fits_c s ->
  (exists a x ss T T', tokens src a x /\ GrammarStmt.program (k_tbl s0) a x ss T /\ resolve_all ss T = COk ts T') /\
  let P := program_of s callees in
  let M := machine_of s callees props in
  let t := start_thread M (init_thread w) in
  match exec_top P n ts (start_sst P w) with
  | Ok s' => exists t', runs M no_poll t (Ok t') /\ t_pc t' = (-1)%Z /\
      t_globs t' = Some (s_globs s') /\ t_heap t' = s_heap s' /\ t_host t' = s_host s' /\ t_stk t' = [] /\ t_frames t' = []
  | Abort => runs M no_poll t Abort
  | UB => True
  | Fuel => run M no_poll n t = Fuel
  end.
Proof.
  intros H s0 fuel mods file src ts s callees props w n R Hh Hm Nu E F.
  destruct (compile_parts _ _ _ _ _ _ _ E) as (ss & p & s1 & t1 & Ep & U & Er & Eh).
  destruct (proj1 (programs_by_grammar (k_tbl s0) src ss (ps_tbl p)) (ex_intro _ fuel (ex_intro _ p (conj Ep eq_refl)))) as (a & x & Tk & Pr).
  unfold tokens in Tk. rewrite Tk in Nu. cbn [fst] in Nu. pose proof (no_uses mods ss (no_use_tokens _ _ _ _ _ Pr Nu) _ _ _ U) as ->.
  cbn [k_tbl set_tbl k_hist] in Er, Eh. rewrite Hh in Eh. cbn [app] in Eh. split.
  - exists a, x, ss, (ps_tbl p), t1. auto.
  - rewrite <- Eh. apply program_runs. exists fuel, mods, file, src, ts, s0. auto.
Qed.
Print Assumptions source_runs.

(** ** A case *)
Lemma reach_by_host n o c s1 : create_state = c -> match c with COk tt s0 => host n o s0 | _ => CUB end = COk tt s1 -> reachable s1.
Proof. intros C E. destruct c as [[] s0| | | | |]; try discriminate E. exists s0. split; [exact C|]. eapply st_host; [exact E|apply st_refl]. Qed.
Lemma demo_reachable : reachable demo_s1.
Proof. exact (reach_by_host 20 (HFun (text_of "log(...): void") 7) create_state demo_s1 eq_refl demo_host). Qed.
Lemma demo_tokens : Forall (fun t => tk t <> USE) (fst (lex_all demo_src)).
Proof. vm_compute. repeat (constructor; [discriminate|]). constructor. Qed.
Lemma demo_fits : fits_c demo_state.
Proof. vm_compute. repeat split. Qed.
Example source_runs_case : exists a x ss T T', tokens demo_src a x /\ GrammarStmt.program (k_tbl demo_s1) a x ss T /\ resolve_all ss T = COk demo_ts T'.
Proof.
  assert (M : forall (m : text) (args : list text) (as_ : option text) (x : kst) b x', (CAbort : cres kst bool) = COk b x' -> steps x x') by discriminate.
  exact (proj1 (source_runs demo_s1 200 (fun _ _ _ _ => CAbort) None demo_src demo_ts demo_state demo_callees demo_natives [] 50
    demo_reachable eq_refl M demo_tokens demo_compiles demo_fits)).
Qed.
Example names_case : get_function_index demo_state (text_of "half") = 1%Z /\ get_function_index demo_state (text_of "log") = (-1)%Z /\
  get_global_index demo_state (text_of "w") = 5%Z /\ get_global_index demo_state (text_of "LIMIT") = (-1)%Z /\
  global_ref (k_tbl demo_state) (text_of "w") <> None /\ reference_function (k_tbl demo_state) (text_of "half") <> None.
Proof. vm_compute. repeat split; discriminate. Qed.
