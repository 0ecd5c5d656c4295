(** * C54: what the host finds by name is what was declared, and stays so *)
From Verif Require Import Base Token Lexer Values Strings Code FileLine Syntax Symbols Parser Resolve Compile Layout CompileProofs TableInv ParserInv ResolveInv Host HostInv LayTable Whole.
From Verif Require Import Grammar GrammarStmt FailTable FailCode Props_Fail Props_Stmt Props_Names Props_Compile ScopeProofs StdBind AcceptWhole Props_Uses Reflect.
Local Open Scope nat_scope.

(** ** Found once, found for good *)
Lemma old_young t : good full t -> sound t.
Proof. intros G. split; [exact (gd_next _ _ G)|exact (gd_unique _ _ G)]. Qed.
Lemma moves_trans a b c : moves a b -> moves b c -> moves a c.
Proof.
  induction 1 as [s|n o s s1 s2 E M IH|n mods file src s s1 s2 Hm _ E M IH]; auto; intros N.
  - eapply mv_host; eauto.
  - eapply mv_compile; eauto.
Qed.
Lemma find_kept l l1 l2 : Forall2 kept l l1 -> forall name y, find (is_function name) l = Some y -> find (is_function name) (l1 ++ l2) = Some y.
Proof.
  intros F name y. induction F as [|a b l l1 K F IH]; [discriminate|]. cbn [find app]. intros Q.
  assert (E : is_function name b = is_function name a).
  { destruct K as (_ & N & K). destruct a as [i n p], b as [i' n' p']. cbn in *. subst. unfold is_function. cbn [sy_body sy_name]. destruct K as [<-|K]; [reflexivity|].
    destruct p as [| | | |[]| | |], p'; try contradiction; reflexivity. }
  rewrite E. destruct (is_function name a) eqn:Fa; [|auto]. injection Q as <-. f_equal. destruct K as (I & N & K). destruct a as [i n p], b as [i' n' p']. cbn in *. subst.
  destruct K as [<-|K]; [reflexivity|]. unfold is_function in Fa. cbn in Fa. destruct p; try discriminate; contradiction.
Qed.

Theorem found_stays : forall s s', reachable s -> moves s s' ->
  (forall name y, find_const_symbol (k_tbl s) name = Some y -> find_const_symbol (k_tbl s') name = Some y) /\
  (forall name g, find_type_symbol (k_tbl s) name = Some g -> find_type_symbol (k_tbl s') name = Some g) /\
  (forall name y, reference_function (k_tbl s) name = Some y -> reference_function (k_tbl s') name = Some y) /\
  (forall i x, get_string (k_tbl s) i = Ok x -> get_string (k_tbl s') i = Ok x).
Proof.
  intros s s' R M. pose proof (reachable_moves _ _ R M) as (K & _). pose proof (kl_tbl _ _ _ K) as B. pose proof (base_stay _ _ B) as St.
  split; [intros; eapply const_stays; eauto|]. split; [intros; eapply type_stays; eauto|]. split; [|intros; eapply string_stays; eauto].
  intros name y F. destruct B as [(l1 & l2 & E & Kp & _) _ _ _ _ _ _]. unfold reference_function in *. rewrite E. eapply find_kept; eauto.
Qed.
Print Assumptions found_stays.

(** ** What the host made known *)
Definition given (t : tbl) (c : hconst) (k : constv) : Prop :=
  match c, k with
  | HBool b, KBool b' => b = b' | HInt z, KInt z' => z = z' | HFloat x, KFloat x' => x = x'
  | HStr x, KStr i => get_string t i = Ok (until_nul x)
  | _, _ => False
  end.
Theorem host_names_found : forall s n s', reachable s ->
  (forall name c, host n (HConst name c) s = COk tt s' ->
     exists id k, find_const_symbol (k_tbl s') name = Some (mkSym id name (SyConst k)) /\ given (k_tbl s') c k) /\
  (forall name, host n (HType name) s = COk tt s' -> find_type_symbol (k_tbl s') name <> None).
Proof.
  intros s n s' R. pose proof (ld_good _ _ (reachable_loaded _ R)) as G. pose proof (old_young _ G) as S. split.
  - intros name c E. unfold host, kon_tbl in E. destruct (bind_const name c (k_tbl s)) as [u t| | | | |] eqn:B; try discriminate. injection E as _ <-. cbn [k_tbl set_tbl]. destruct u.
    destruct c; cbn [bind_const] in B; try (destruct (declared_const _ _ _ _ B) as (_ & id & F & _); exists id; eexists; split; [exact F|reflexivity]).
    apply cbind_ok in B as (i & t1 & I & B). destruct (declared_const _ _ _ _ B) as (Gr & id & F & _). exists id, (KStr i). split; [exact F|]. cbn [given].
    destruct (grows_intern _ _ _ _ I S) as (S1 & _). destruct (Gr S1) as (_ & St). eapply string_stays; [exact St|]. eapply interned; eauto.
  - intros name E. unfold host, kon_tbl in E. destruct (register_type name (k_tbl s)) as [u t| | | | |] eqn:B; try discriminate. injection E as _ <-. cbn [k_tbl set_tbl].
    unfold find_type_symbol. unfold register_type in B. destruct (prim_tag name); [discriminate|].
    destruct (find (is_type_named name) (tb_syms (k_tbl s))) as [[id nm b]|] eqn:F.
    + assert (Q : b = SyForeignTag \/ exists d fs, b = SyStruct d fs).
      { apply find_some in F as (_ & F). unfold is_type_named in F. cbn in F. destruct b; try discriminate; eauto. }
      destruct Q as [->|([] & fs & ->)]; injection B as _ <-.
      * rewrite F. discriminate.
      * rewrite F. discriminate.
      * assert (Y : sym_at (k_tbl s) id = Some (mkSym id nm (SyStruct false fs))) by (apply find_some in F as (I & _); exact (in_sym_at _ _ (gd_unique _ _ G) I)).
        destruct (stay_put (k_tbl s) id _ SyForeignTag (proj2 S) Y eq_refl) as ((l1 & l2 & El & F2) & _).
        destruct (find_like _ (is_type_named name) _ (type_like name) l1 l2 F2 _ F) as (z & Fz & L). rewrite El, Fz.
        assert (Iz : In z (tb_syms (put_body (k_tbl s) id SyForeignTag))) by (rewrite El; apply find_some in Fz; tauto).
        destruct L as (Li & _). cbn [put_body set_syms tb_syms] in Iz. apply in_map_iff in Iz as (w & Ew & _). cbn [sy_id] in Li.
        destruct (Nat.eqb_spec (sy_id w) id) as [Q|Q]; [subst z; discriminate|subst z; congruence].
    + injection B as _ <-. cbn [new_sym snd tb_syms]. rewrite (find_last _ _ _ F); [discriminate|]. unfold is_type_named. cbn. apply text_eqb_refl.
Qed.
Print Assumptions host_names_found.

(** ** What a source declares *)
(** A macro that fails ends the compile, so the failures of macros do not matter to a
    compile that succeeds *)
Definition cut (mods : text -> macro) : text -> macro := fun m args as_ x => match mods m args as_ x with CFail _ => CAbort | r => r end.
Lemma cut_uses mods ss : forall s s', run_uses mods ss s = COk tt s' -> run_uses (cut mods) ss s = COk tt s'.
Proof.
  intros s s' E. apply uses_run in E. apply uses_run. induction E as [s|n m args as_ ss s s1 s2 Ex L M U IH|st ss s s1 N U IH].
  - constructor.
  - econstructor; eauto. unfold cut. rewrite M. reflexivity.
  - constructor; auto.
Qed.
Lemma cut_compile n mods file src s ts s' : compile_string n mods file src s = COk ts s' -> compile_string n (cut mods) file src s = COk ts s'.
Proof.
  intros E. destruct (compile_parts _ _ _ _ _ _ _ E) as (ss & p & s1 & t1 & P & U & _). unfold compile_string in *.
  rewrite (body_uses n mods file src s ss p s1 P U) in E. rewrite (body_uses n (cut mods) file src s ss p s1 P (cut_uses _ _ _ _ U)). exact E.
Qed.
Lemma steps_moves s s' : steps s s' -> moves s s'.
Proof.
  induction 1 as [s|n o s s1 s2 E S IH|n mods file src ts s s1 s2 Hm IHm E S IH]; [constructor| |].
  - eapply mv_host; eauto.
  - eapply (mv_compile n (cut mods) file src); [|left; exists ts; apply cut_compile; exact E|exact IH].
    intros m args as_ x b x' Q. unfold cut in Q. destruct (mods m args as_ x) as [b0 x0|x0| | | |] eqn:Em; destruct Q as [Q|Q]; try discriminate Q. injection Q as -> ->. eapply IHm; eauto.
Qed.
Lemma uses_steps mods ss s s' : (forall m args as_ x b x', mods m args as_ x = COk b x' -> steps x x') -> uses mods ss s s' -> moves s s'.
Proof.
  intros Hm. induction 1 as [s|n m args as_ ss s s1 s2 Ex L M U IH|st ss s s1 N U IH]; [constructor| |exact IH].
  eapply moves_trans; [apply steps_moves; eapply Hm; exact M|exact IH].
Qed.

(** The tables of a successful compile: after parsing and at the end *)
Lemma compile_stays n mods file src ts s s' : reachable s ->
  (forall m args as_ x b x', mods m args as_ x = COk b x' -> steps x x') ->
  compile_string n mods file src s = COk ts s' ->
  exists ss p, parse_program n (start_parse (k_tbl s) src) = COk ss p /\ stay (ps_tbl p) (k_tbl s').
Proof.
  intros R Hm E. pose proof (reachable_loaded _ R) as L.
  unfold compile_string in E. destruct (compile_body n mods file src s) as [x s1| | | | |] eqn:B; try discriminate.
  injection E as <- <-. unfold compile_body in B.
  apply cbind_ok in B as (n1 & s2 & E1 & B). injection E1 as _ <-.
  apply cbind_ok in B as (ss & s3 & E2 & B).
  destruct (parse_program n (start_parse (k_tbl s) src)) as [a p| | | | |] eqn:P; try discriminate. injection E2 as <- <-.
  apply cbind_ok in B as (n2 & s4 & E3 & B). injection E3 as _ <-.
  apply cbind_ok in B as (u5 & s5 & E5 & B). apply cbind_ok in B as (u6 & s6 & E6 & B).
  assert (s6 = s5) as -> by (destruct (forallb _ _); [injection E6 as _ <-; auto|discriminate]).
  apply cbind_ok in B as (ts' & s7 & E7 & B). apply cbind_ok in B as (u8 & s8 & E8 & B).
  assert (s8 = s7) as -> by (destruct (forallb _ _); [injection E8 as _ <-; auto|discriminate]).
  apply cret_ok in B as (-> & ->). exists a, p. split; [reflexivity|].
  destruct (program_inv _ _ _ _ _ (ld_func _ _ L) P) as (Gr & Sc).
  pose proof (loaded_tbl _ _ _ _ L Gr) as L3. destruct u5. pose proof (uses_steps _ _ _ _ Hm (proj1 (uses_run _ _ _ _) E5)) as M.
  assert (L5 : loaded ([] ++ map fst (flat_map ubodies a)) s5).
  { eapply run_uses_inv; [|exact E5|exact L3]. intros m args as_ y b y' Em pd Lp. eapply steps_loaded; eauto. }
  set (s3 := set_tbl s (ps_tbl p)) in *. pose proof (old_cases _ _ L3) as C.
  pose proof (moves_ks s3 (old_code s3) (ld_good _ _ L3) C _ _ M (ks_refl s3 (old_code s3) (ld_func _ _ L3) C)) as (K & _).
  pose proof (base_stay _ _ (kl_tbl _ _ _ K)) as St. change (k_tbl s3) with (ps_tbl p) in St. eapply stay_trans; [exact St|].
  destruct (compile_state_inv _ _ _ _ _ _ L5 (gr_bodies _ _ _ Gr) Sc E7) as (_ & _ & _ & _ & (t1 & Er & Sh) & La).
  destruct (resolve_all_inv _ _ _ _ Er) as (Kp & _). destruct (Kp (gd_unique _ _ (ld_good _ _ L5))) as (Sh0 & _).
  apply shape_stay; [eapply shape_trans; eauto|exact (la_strings _ _ La)].
Qed.

(** In a source that compiles, every constant declared, also one in a function, is
    found by its name with the value of its literal and is what the name means to a
    script outside functions; every structure is found. *)
Theorem source_names_found : forall s fuel mods file src ts s' a x ss names T, reachable s ->
  (forall m args as_ x b x', mods m args as_ x = COk b x' -> steps x x') ->
  compile_string fuel mods file src s = COk ts s' ->
  tokens src a x -> program_with (k_tbl s) a x ss names T ->
  (forall name e, In (name, e) (flat_map consts_of ss) -> exists id k, literal (k_tbl s') a e k /\
     find_const_symbol (k_tbl s') name = Some (mkSym id name (SyConst k)) /\ global_ref (k_tbl s') name = Some (RConst id)) /\
  (forall name, In name names -> find_type_symbol (k_tbl s') name <> None).
Proof.
  intros s fuel mods file src ts s' a x ss names T R Hm E Tk Pw. destruct (compile_stays _ _ _ _ _ _ _ R Hm E) as (ss0 & p & P & St).
  destruct (proj1 (programs_by_grammar (k_tbl s) src ss0 (ps_tbl p)) (ex_intro _ fuel (ex_intro _ p (conj P eq_refl)))) as (a0 & x0 & Tk0 & Pr).
  unfold tokens in Tk, Tk0. assert (X : a0 = a /\ x0 = x) by (rewrite Tk in Tk0; injection Tk0; auto). destruct X as (-> & ->).
  assert (Y : ss0 = ss /\ ps_tbl p = T) by exact (program_unambiguous _ _ _ _ _ _ _ Pr (proj2 (program_names _ _ _ _ _) (ex_intro _ names Pw))).
  destruct Y as (-> & Ep). rewrite Ep in St.
  destruct (program_declared _ _ _ _ _ _ Pw (old_young _ (ld_good _ _ (reachable_loaded _ R)))) as (_ & _ & D & N). split.
  - exact (declared_more _ _ _ _ _ St (incl_refl _) D).
  - intros name I. pose proof (N name I) as F. destruct (find_type_symbol T name) as [g|] eqn:Fg; [|congruence]. rewrite (type_stays _ _ _ _ St Fg). discriminate.
Qed.
Print Assumptions source_names_found.

(** ** Cases *)
Definition refl_src : text := text_of
"LIMIT :: 40
struct Point { x: int y: int }
func area(p: Point): int { SIDE :: ""side""  return p.x * p.y + LIMIT }
a := area(new Point{2, 3})".
Definition refl_state : kst := Eval vm_compute in match cmp refl_src small_s1 with COk _ s => s | _ => init_kst end.
Definition refl_ts : list tstmt := Eval vm_compute in match cmp refl_src small_s1 with COk ts _ => ts | _ => [] end.
Lemma refl_compiles : compile_string 100 no_macro None refl_src small_s1 = COk refl_ts refl_state.
Proof. vm_cast_no_check (eq_refl (COk refl_ts refl_state)). Qed.
Definition refl_ss : list stmt := Eval vm_compute in match parse_program 100 (start_parse (k_tbl small_s1) refl_src) with COk ss _ => ss | _ => [] end.
Definition refl_pst : pst := Eval vm_compute in match parse_program 100 (start_parse (k_tbl small_s1) refl_src) with COk _ p => p | _ => start_parse init_tbl [] end.
Lemma refl_parses : parse_program 100 (start_parse (k_tbl small_s1) refl_src) = COk refl_ss refl_pst.
Proof. vm_cast_no_check (eq_refl (COk refl_ss refl_pst)). Qed.
Definition refl_fail : kst := Eval vm_compute in failed_of (cmp (text_of "struct Pair { l: Point } LIMIT = 3") refl_state).
Lemma refl_fails : compile_string 100 no_macro None (text_of "struct Pair { l: Point } LIMIT = 3") refl_state = CFail refl_fail.
Proof. vm_cast_no_check (eq_refl (CFail (A := list tstmt) refl_fail)). Qed.

Lemma steps_then a b c : steps a b -> steps b c -> steps a c.
Proof.
  induction 1 as [s|n o s s1 s2 E M IH|n mods file src ts s s1 s2 Hm E M IH]; auto; intros N.
  - eapply st_host; eauto.
  - eapply st_compile; eauto.
Qed.
Lemma small_reachable : reachable small_s1.
Proof. exact (reach_by_host 20 (HMacro (text_of "m")) create_state small_s1 eq_refl small_host). Qed.
Lemma refl_reachable : reachable refl_state.
Proof.
  destruct small_reachable as (s0 & C & St). exists s0. split; [exact C|].
  exact (steps_then _ _ _ St (st_compile 100 no_macro None refl_src refl_ts small_s1 refl_state refl_state no_macro_steps refl_compiles (st_refl _))).
Qed.
Example reflect_case : reachable small_s1 /\ reachable refl_state /\
  (exists a x names T, tokens refl_src a x /\ program_with (k_tbl small_s1) a x refl_ss names T) /\
  flat_map consts_of refl_ss = [(text_of "LIMIT", EInt 40); (text_of "SIDE", EStr 0)] /\
  moves refl_state refl_fail /\
  (exists id, find_const_symbol (k_tbl refl_fail) (text_of "LIMIT") = Some (mkSym id (text_of "LIMIT") (SyConst (KInt 40)))) /\
  find_const_symbol (k_tbl refl_fail) (text_of "a") = None /\
  (exists g, find_type_symbol (k_tbl refl_state) (text_of "Point") = Some g) /\ find_type_symbol (k_tbl refl_state) (text_of "Pair") = None /\
  (exists y, reference_function (k_tbl refl_fail) (text_of "area") = Some y) /\
  get_string (k_tbl refl_fail) 0 = Ok (text_of "side") /\ get_string (k_tbl refl_fail) 9 = Abort.
Proof.
  split; [exact small_reachable|]. split; [exact refl_reachable|]. split.
  { destruct (proj1 (programs_by_grammar (k_tbl small_s1) refl_src refl_ss (ps_tbl refl_pst)) (ex_intro _ 100 (ex_intro _ refl_pst (conj refl_parses eq_refl)))) as (a & x & Tk & Pr).
    apply program_names in Pr as (ns & Pr). exists a, x, ns, (ps_tbl refl_pst). auto. }
  split; [vm_compute; reflexivity|]. split; [exact (mv_compile 100 no_macro None _ refl_state refl_fail refl_fail no_macro_moves (or_intror refl_fails) (mv_refl _))|].
  split; [eexists; vm_compute; reflexivity|]. split; [vm_compute; reflexivity|]. split; [eexists; vm_compute; reflexivity|].
  split; [vm_compute; reflexivity|]. split; [eexists; vm_compute; reflexivity|]. split; vm_compute; reflexivity.
Qed.
