(** * C46: what the host binds is what programs see *)
From Verif Require Import Base Token Lexer Values Heap Strings Code Syntax Symbols Parser Resolve VM Source Compile CompileProofs
  Layout TableInv ParserInv Host HostInv LayTable Whole Preserve TagTable TagParse TagWhole Scope ScopeProofs Typing TypingProofs
  Grammar BindSpec BindProofs Props_Compile Props_Names.
Local Open Scope nat_scope.

(** ** Reading the table *)
Definition a_foreign (name : text) (s : sym) : Prop := sy_name s = name /\ exists i args va ret c, sy_body s = SyForeign i args va ret c.
Definition a_value (name : text) (s : sym) : Prop :=
  sy_name s = name /\ ((exists i b g, sy_body s = SyGlobal i b g) \/ (exists c, sy_body s = SyConst c)).
Definition a_type (name : text) (s : sym) : Prop :=
  sy_name s = name /\ ((exists d fs, sy_body s = SyStruct d fs) \/ sy_body s = SyForeignTag).
Definition a_macro (name : text) (s : sym) : Prop := sy_name s = name /\ sy_body s = SyModule.
Definition none (P : sym -> Prop) (t : tbl) : Prop := Forall (fun s => ~ P s) (tb_syms t).

(** [t] with one more foreign function *)
Definition with_foreign (t : tbl) (name : text) (args : list tag) (va : bool) (ret : tag) (callee : nat) : tbl :=
  mkTbl (tb_syms t ++ [mkSym (tb_next t) name (SyForeign (tb_nforeign t) args va ret callee)]) (S (tb_next t)) (tb_strings t)
        (tb_nglob t) (tb_nfun t) (S (tb_nforeign t)) (tb_scope t) (tb_func t).

Ltac is_tac := cbn; match goal with b : symbody |- _ => destruct b end; split; try discriminate;
  try (intros Q; apply text_eqb_eq in Q; subst; split; eauto 10; fail); try (intros (-> & _); apply text_eqb_refl).
Lemma foreign_is name y : is_foreign_named name y = true <-> a_foreign name y.
Proof. unfold is_foreign_named, a_foreign. destruct y as [i n b]. is_tac; intros (_ & ? & ? & ? & ? & ? & [=]). Qed.
Lemma value_is name y : is_value_sym name y = true <-> a_value name y.
Proof. unfold is_value_sym, a_value. destruct y as [i n b]. is_tac; intros (_ & [(? & ? & ? & [=])|(? & [=])]). Qed.
Lemma type_is name y : is_type_named name y = true <-> a_type name y.
Proof. unfold is_type_named, a_type. destruct y as [i n b]. is_tac; intros (_ & [(? & ? & [=])|[=]]). Qed.
Lemma none_find (p : sym -> bool) P t : (forall y, p y = true <-> P y) -> none P t <-> find p (tb_syms t) = None.
Proof. intros R. unfold none. symmetry. apply find_none_forall. exact R. Qed.

(** ** Functions: what the signature says is what is bound, and nothing else *)
Theorem function_binding : forall sig callee T T', (exists n, bind_host n sig callee T = COk tt T') <->
  exists a y name args va ret T1, begins sig a y /\ BindSpec.signature T a (tk y) name args va ret T1 /\
    none (a_foreign name) T1 /\ T' = with_foreign T1 name args va ret callee.
Proof.
  intros sig callee T T'. split.
  - intros (n & E). destruct (host_sound _ _ _ _ _ E) as (a & y & name & gs & va & ret & T1 & B & S & F).
    exists a, y, name, gs, va, ret, T1. split; [auto|split; [auto|]]. unfold bind_function in F.
    destruct (find (is_foreign_named name) (tb_syms T1)) eqn:Q; [discriminate|]. split; [apply (none_find _ _ _ (foreign_is name)); auto|].
    cbn in F. injection F as <-. reflexivity.
  - intros (a & y & name & gs & va & ret & T1 & B & S & N & ->). destruct (host_complete sig callee T a y name gs va ret T1 B S) as (n & C).
    exists n. rewrite C by lia. unfold bind_function. apply (none_find _ _ _ (foreign_is name)) in N. rewrite N. reflexivity.
Qed.
Print Assumptions function_binding.

(** A text has one reading. *)
Theorem signature_unambiguous : forall sig T a y name gs va ret T1 a' y' name' gs' va' ret' T1',
  begins sig a y -> BindSpec.signature T a (tk y) name gs va ret T1 ->
  begins sig a' y' -> BindSpec.signature T a' (tk y') name' gs' va' ret' T1' ->
  none (a_foreign name) T1 -> (name', gs', va', ret', T1') = (name, gs, va, ret, T1).
Proof.
  intros sig T a y name gs va ret T1 a' y' name' gs' va' ret' T1' B S B' S' N.
  destruct (host_complete sig 0 T a y name gs va ret T1 B S) as (n & C). destruct (host_complete sig 0 T a' y' name' gs' va' ret' T1' B' S') as (n' & C').
  pose proof (C (max n n') ltac:(lia)) as E. rewrite (C' (max n n')) in E by lia. unfold bind_function in E.
  apply (none_find _ _ _ (foreign_is name)) in N. rewrite N in E. destruct (find (is_foreign_named name') (tb_syms T1')); [discriminate|]. destruct T1 as [t1 t2 t3 t4 t5 t6 t7 t8], T1' as [u1 u2 u3 u4 u5 u6 u7 u8].
  unfold new_sym, set_nforeign in E. cbn in E. assert (X : u1 ++ [mkSym u2 name' (SyForeign u6 gs' va' ret' 0)] = t1 ++ [mkSym t2 name (SyForeign t6 gs va ret 0)]) by (injection E; auto).
  apply app_inj_tail in X as (X1 & X2). injection X2; intros; subst. injection E; intros; subst. reflexivity.
Qed.

(** ** Later states *)
Lemma rows (l l' : list sym) ns : map label l' = map label l ++ ns -> exists k m, l' = k ++ m /\ map label k = map label l.
Proof.
  intros E. exists (firstn (length l) l'), (skipn (length l) l'). split; [symmetry; apply firstn_skipn|]. rewrite <- firstn_map, E.
  rewrite <- (map_length label l), firstn_app, Nat.sub_diag, firstn_all. cbn. apply app_nil_r.
Qed.

(** What comes later: the table grows, and what was there keeps what matters *)
Record after (t t' : tbl) : Prop := {
  af_uniq : unique t;
  af_uniq' : unique t';
  af_ext : extends t t';
  af_kinds : kinds t t';
  af_strings : exists x, tb_strings t' = tb_strings t ++ x
}.
Lemma steps_after s s' : reachable s -> steps s s' -> after (k_tbl s) (k_tbl s').
Proof.
  intros R S. pose proof (reachable_loaded _ R) as L. pose proof (reachable_tags _ R) as T.
  destruct (steps_tags _ _ S _ L T) as (_ & K & _). pose proof (steps_later _ _ S _ L) as La. pose proof (steps_loaded _ _ S _ L) as L'.
  constructor; [apply (ld_good _ _ L)|apply (ld_good _ _ L')|apply (la_tbl _ _ La)|exact K|]. destruct (la_strings _ _ La) as (x & X). eauto.
Qed.
Lemma step_after n o s s' : reachable s -> host n o s = COk tt s' -> reachable s'.
Proof.
  intros (s0 & E & S) H. exists s0. split; auto. clear E. induction S as [s|? ? ? ? ? E S IH|? ? ? ? ? ? ? ? Hm _ E S IH].
  - eapply st_host; [exact H|apply st_refl].
  - eapply st_host; eauto.
  - eapply st_compile; eauto.
Qed.

(** A symbol and what it became *)
Definition became (y y' : sym) : Prop :=
  sy_id y' = sy_id y /\ sy_name y' = sy_name y /\ key (sy_body y') = key (sy_body y) /\
  (undefined y = false -> erase y' = erase y) /\ tname (sy_body y) (sy_body y').
Lemma after_rows t t' : after t t' -> exists k m, tb_syms t' = k ++ m /\ Forall2 became (tb_syms t) k.
Proof.
  intros [U U' [At (ns & Lb)] Ki _]. destruct (rows _ _ _ Lb) as (k & m & E & Ek). exists k, m. split; auto.
  assert (G : forall l, (forall y, In y l -> In y (tb_syms t)) -> forall k', (forall y, In y k' -> In y (tb_syms t')) -> map label k' = map label l -> Forall2 became l k').
  { induction l as [|y l IH]; intros Hl k' Hk Q; destruct k' as [|y' k']; try discriminate; constructor.
    - cbn in Q. injection Q as Q1 Q2 Q3 _. pose proof (in_sym_at _ _ U (Hl y (or_introl eq_refl))) as A.
      pose proof (in_sym_at _ _ U' (Hk y' (or_introl eq_refl))) as A'. rewrite Q1 in A'.
      split; [auto|]. split; [auto|]. split; [auto|]. split.
      + intros D. destruct (At _ _ A D) as (z & Z & Ez). congruence.
      + destruct (Ki _ _ A) as (z & Z & _ & Tn). congruence.
    - apply IH; [intros; apply Hl; right; auto|intros; apply Hk; right; auto|]. cbn in Q. injection Q. auto. }
  apply G; auto. intros y I. rewrite E. apply in_or_app. auto.
Qed.
Lemma find_after (p : sym -> bool) t t' : after t t' -> (forall y y', became y y' -> p y' = p y) ->
  forall y, find p (tb_syms t) = Some y -> exists y', find p (tb_syms t') = Some y' /\ became y y'.
Proof.
  intros A Hp. destruct (after_rows _ _ A) as (k & m & -> & F). induction F as [|z z' l k Q F IH]; cbn; [discriminate|].
  rewrite (Hp _ _ Q). destruct (p z); auto. intros y [= <-]. eauto.
Qed.
Ltac cases_became y y' := let Q := fresh in intros Q; destruct y as [? ? b], y' as [? ? b']; unfold became, erase in Q; cbn in Q; destruct Q as (-> & -> & ? & ? & ?); destruct b; cbn in *;
  repeat match goal with H : false = false -> _ |- _ => specialize (H eq_refl) end; try (destruct b'; cbn in *; try discriminate; try contradiction; reflexivity).
Lemma value_became name y y' : became y y' -> is_value_sym name y' = is_value_sym name y.
Proof. unfold is_value_sym. cases_became y y'. Qed.
Lemma function_became name y y' : became y y' -> is_function name y' = is_function name y.
Proof. unfold is_function. cases_became y y'. Qed.
Lemma type_became name y y' : became y y' -> is_type_named name y' = is_type_named name y.
Proof. unfold is_type_named. cases_became y y'. Qed.

Lemma erased_body b b' : (match b with SyGlobal _ _ _ | SyFunc _ _ _ _ => False | _ => True end) -> erase_body b' = erase_body b -> b' = b.
Proof. destruct b, b'; cbn; intros K E; try contradiction; try discriminate; auto; injection E; intros; subst; auto. Qed.
Lemma became_same y y' : became y y' -> undefined y = false -> (match sy_body y with SyGlobal _ _ _ | SyFunc _ _ _ _ => False | _ => True end) -> y' = y.
Proof.
  intros (A & B & _ & D & _) U K. specialize (D U). destruct y as [i n b], y' as [i' n' b']. cbn in *. subst. unfold erase in D. cbn in D. injection D as D. f_equal. apply erased_body; auto.
Qed.

(** Reading a signature declares no function. *)
Lemma type_functions T a g T' f : spells_type T a g T' -> reference_function T' f = reference_function T f.
Proof.
  assert (N : forall x T g T', tag_from_name x T = COk g T' -> reference_function T' f = reference_function T f).
  { intros x T0 g0 T0'. unfold tag_from_name. destruct (prim_tag x); [intros [= _ <-]; reflexivity|].
    destruct (find (is_type_named x) (tb_syms T0)); [intros [= _ <-]; reflexivity|]. unfold declare_struct.
    cbn. intros [= _ <-]. unfold reference_function. cbn. rewrite find_app. destruct (find _ (tb_syms T0)); reflexivity. }
  intros [T0 t x g0 T0' _ _ E|T0 t x g0 T1 q g' T0' _ _ E _ _ G]; [eauto|]. rewrite <- (N _ _ _ _ E). unfold get_nullable in G.
  destruct (find _ _) as [y|]; [injection G as _ <-; reflexivity|]. destruct (tag_name T1 g0); [|discriminate]. cbn in G. injection G as _ <-. unfold reference_function. cbn. rewrite find_app. destruct (find _ (tb_syms T1)); reflexivity.
Qed.
Lemma sig_args_functions T a gs va T' f : spells_sig_args T a gs va T' -> reference_function T' f = reference_function T f.
Proof. induction 1; auto. rewrite IHspells_sig_args. eapply type_functions; eauto. Qed.
Lemma signature_functions T a k name gs va ret T' f : BindSpec.signature T a k name gs va ret T' -> reference_function T' f = reference_function T f.
Proof.
  intros []; auto; [eapply sig_args_functions; eauto|]. rewrite (type_functions _ _ _ _ f H5). eapply sig_args_functions; eauto.
Qed.

Lemma host_fun n sig callee s s1 : host n (HFun sig callee) s = COk tt s1 ->
  exists a y name args va ret T1, begins sig a y /\ BindSpec.signature (k_tbl s) a (tk y) name args va ret T1 /\ none (a_foreign name) T1 /\
    s1 = set_tbl s (with_foreign T1 name args va ret callee).
Proof.
  unfold host, kon_tbl. destruct (bind_host n sig callee (k_tbl s)) as [[] t| | | | |] eqn:E; try discriminate. intros [= <-].
  destruct (proj1 (function_binding sig callee (k_tbl s) t) (ex_intro _ n E)) as (a & y & name & args & va & ret & T1 & B & S & N & ->). eauto 12.
Qed.

(** After the binding, whatever else is bound and compiled, a call by that name
    means the host's function, with the types of the signature; unless the name
    was that of a function of a program already. *)
Theorem bound_function : forall s n sig callee s1 s2, reachable s -> host n (HFun sig callee) s = COk tt s1 -> steps s1 s2 ->
  exists a y name args va ret T1, begins sig a y /\ BindSpec.signature (k_tbl s) a (tk y) name args va ret T1 /\
    (no_function_named (k_tbl s) name ->
       exists id i, function_named (k_tbl s2) name (mkSym id name (SyForeign i args va ret callee))) /\
    (forall f, function_named (k_tbl s) name f ->
       exists f', function_named (k_tbl s2) name f' /\ sy_id f' = sy_id f).
Proof.
  intros s n sig callee s1 s2 R E S. destruct (host_fun _ _ _ _ _ E) as (a & y & name & args & va & ret & T1 & B & Sg & N & E1).
  exists a, y, name, args, va, ret, T1. split; auto. split; auto. pose proof (steps_after _ _ (step_after _ _ _ _ R E) S) as A.
  assert (F1 : reference_function (k_tbl s1) name = match reference_function (k_tbl s) name with Some f => Some f
    | None => Some (mkSym (tb_next T1) name (SyForeign (tb_nforeign T1) args va ret callee)) end).
  { rewrite E1, <- (signature_functions _ _ _ _ _ _ _ _ name Sg). unfold reference_function, with_foreign. cbn [set_tbl k_tbl tb_syms]. rewrite find_app.
    destruct (find _ (tb_syms T1)); auto. cbn. rewrite text_eqb_refl. reflexivity. }
  split.
  - intros Nf. apply no_function_at in Nf. rewrite Nf in F1. unfold reference_function in F1.
    destruct (find_after _ _ _ A (fun _ _ => function_became name _ _) _ F1) as (f' & F2 & Bc). exists (tb_next T1), (tb_nforeign T1).
    apply function_at. unfold reference_function. rewrite F2. f_equal. apply became_same; auto. exact I.
  - intros f Ff. apply function_at in Ff. rewrite Ff in F1. unfold reference_function in F1.
    destruct (find_after _ _ _ A (fun _ _ => function_became name _ _) _ F1) as (f' & F2 & Bc). exists f'. split; [apply function_at; exact F2|apply Bc].
Qed.
Print Assumptions bound_function.

(** Running such a call runs the host's function on the arguments, from left to
    right. *)
Theorem bound_call : forall {H} s2 (callees : nat -> list Values.value -> fprog H) name id i args va ret callee,
  function_named (k_tbl s2) name (mkSym id name (SyForeign i args va ret callee)) ->
  let P := program_of s2 callees in
  forall n d fe es g h st, eval P (enter_fn P n) d fe (TCall name es g) h st =
    (' (vs, st1) <- eval_list (map (eval P (enter_fn P n) d fe) es) h st ;;
     ' (v, st2) <- run_foreign P (call_back P (enter_fn P n) d) (h + length vs) (callees callee vs) st1 ;;
     keep P h v st2)%outcome.
Proof.
  intros H s2 callees name id i args va ret callee F P n d fe es g h st. apply function_at in F. cbn [eval].
  destruct (eval_list _ h st) as [[vs st1]| | |]; cbn [obind]; auto. cbn [P program_of p_tbl]. rewrite F. reflexivity.
Qed.

(** ** Constants *)
Definition hconst_type (c : hconst) : tag := match c with HBool _ => GBool | HInt _ => GInt | HFloat _ => GFloat | HStr _ => GStr end.
(** ints and floats are kept in 32 and 64 bits, texts end at their first NUL *)
Definition hconst_value (c : hconst) : Values.value :=
  match c with HBool b => VBool b | HInt z => VInt (wrap32 z) | HFloat f => VFloat (f mod 2 ^ 64) | HStr x => VCStr (until_nul x) end.

Lemma find_string_some tbl s : forall i k, find_string tbl s i = Some k -> i <= k /\ nth_error tbl (k - i) = Some s.
Proof.
  induction tbl as [|t tbl IH]; cbn; [discriminate|]. intros i k. destruct (text_eqb t s) eqn:Q.
  - intros [= <-]. apply text_eqb_eq in Q. subst. rewrite Nat.sub_diag. auto.
  - intros E. destruct (IH _ _ E) as (L & N). split; [lia|]. replace (k - i) with (Datatypes.S (k - Datatypes.S i)) by lia. exact N.
Qed.
Lemma find_string_none tbl s : forall i, find_string tbl s i = None <-> ~ In s tbl.
Proof.
  induction tbl as [|t tbl IH]; cbn; [tauto|]. intros i. destruct (text_eqb t s) eqn:Q.
  - apply text_eqb_eq in Q. split; [discriminate|]. intros N. tauto.
  - rewrite IH. split; [|tauto]. intros N [->|I]; auto. rewrite text_eqb_refl in Q. discriminate.
Qed.
Lemma reachable_outside s : reachable s -> tb_func (k_tbl s) = None.
Proof. intros R. apply (reachable_loaded _ R). Qed.
Lemma const_ok name k t u t' : tb_func t = None -> declare_const name k t = COk u t' <-> none (a_value name) t /\ t' = snd (new_sym t name (SyConst k)) /\ u = tt.
Proof.
  intros F. unfold declare_const, cbind, reference_variable. rewrite F. rewrite (none_find _ _ _ (value_is name)). unfold global_ref.
  destruct (find _ (tb_syms t)); cbn [option_map].
  - split; [discriminate|]. intros ([=] & _).
  - split; [intros [= <- <-]; auto|]. intros (_ & -> & ->). reflexivity.
Qed.

Lemma intern_is x t : intern x t = match find_string (tb_strings t) (until_nul x) 0 with
  | Some i => COk i (set_strings t (tb_strings t))
  | None => if length (tb_strings t) <? 1024 then COk (length (tb_strings t)) (set_strings t (tb_strings t ++ [until_nul x])) else CAbort end.
Proof. unfold intern, register_string, oassert, max_strings. destruct (find_string _ _ _); auto. destruct (_ <? _); auto. Qed.
Lemma const_is name c t : tb_func t = None ->
  (exists t', bind_const name c t = COk tt t') <-> none (a_value name) t /\
  match c with HStr x => In (until_nul x) (tb_strings t) \/ length (tb_strings t) < 1024 | _ => True end.
Proof.
  intros F. assert (D : forall k, (exists t', declare_const name k t = COk tt t') <-> none (a_value name) t).
  { intros k. split; [intros (t' & E); apply const_ok in E; tauto|]. intros N. eexists. apply const_ok; auto. }
  destruct c; cbn [bind_const]; try (rewrite D; tauto). unfold cbind. rewrite intern_is.
  destruct (find_string _ _ _) as [i|] eqn:Q.
  - assert (In (until_nul s) (tb_strings t)) by (apply find_string_some in Q as (_ & Q); eapply nth_error_In; eauto).
    split; [intros (t' & E); apply const_ok in E as (N & _); auto|]. intros (N & _). eexists. apply const_ok; auto.
  - apply find_string_none in Q. destruct (Nat.ltb_spec (length (tb_strings t)) 1024) as [L|L].
    + split; [intros (t' & E); apply const_ok in E as (N & _); auto|]. intros (N & _). eexists. apply const_ok; auto.
    + split; [intros (t' & [=])|]. intros (_ & [I|Lt]); [contradiction|lia].
Qed.
Lemma const_spec name c t t' : tb_func t = None -> bind_const name c t = COk tt t' ->
  none (a_value name) t /\ exists k, tb_syms t' = tb_syms t ++ [mkSym (tb_next t) name (SyConst k)] /\
    match c with
    | HBool b => k = KBool b | HInt z => k = KInt z | HFloat f => k = KFloat f
    | HStr x => exists i, k = KStr i /\ nth_error (tb_strings t') i = Some (until_nul x)
    end.
Proof.
  intros F E. destruct c; cbn [bind_const] in E; try (apply const_ok in E as (N & -> & _); auto; split; [exact N|]; eexists; split; [reflexivity|reflexivity]).
  unfold cbind in E. rewrite intern_is in E. destruct (find_string _ _ _) as [i|] eqn:Q.
  - apply const_ok in E as (N & -> & _); auto. split; [exact N|]. eexists. split; [reflexivity|]. exists i. split; auto. cbn.
    apply find_string_some in Q as (_ & Q). rewrite Nat.sub_0_r in Q. exact Q.
  - destruct (length _ <? _); [|discriminate]. apply const_ok in E as (N & -> & _); auto. split; [exact N|]. eexists. split; [reflexivity|]. eexists. split; auto. cbn.
    rewrite nth_error_app2, Nat.sub_diag by lia. reflexivity.
Qed.
Lemma host_const n name c s s1 : host n (HConst name c) s = COk tt s1 -> exists t, bind_const name c (k_tbl s) = COk tt t /\ s1 = set_tbl s t.
Proof. unfold host, kon_tbl. destruct (bind_const name c (k_tbl s)) as [[] t| | | | |]; try discriminate. intros [= <-]. eauto. Qed.

(** A constant can be bound when no variable or constant has its name and there
    is room for its text. *)
Theorem constant_binding : forall s n name c, reachable s ->
  (exists s1, host n (HConst name c) s = COk tt s1) <->
  none (a_value name) (k_tbl s) /\
  match c with HStr x => In (until_nul x) (tb_strings (k_tbl s)) \/ length (tb_strings (k_tbl s)) < 1024 | _ => True end.
Proof.
  intros s n name c R. rewrite <- (const_is name c (k_tbl s) (reachable_outside _ R)). split.
  - intros (s1 & E). destruct (host_const _ _ _ _ _ E) as (t & Et & _). eauto.
  - intros (t & Et). eexists. unfold host, kon_tbl. rewrite Et. reflexivity.
Qed.

(** Afterwards, wherever no local variable or parameter has the name, it means
    the constant, which has the type and the value given to the host call; of the
    texts only the first 256 of a state can be loaded. *)
Theorem bound_constant : forall s n name c s1 s2, reachable s -> host n (HConst name c) s = COk tt s1 -> steps s1 s2 ->
  exists id, lookup (env_of (k_tbl s2)) name = Some (RConst id) /\ var_type (k_tbl s2) (RConst id) (hconst_type c) /\
    forall H (callees : nat -> list Values.value -> fprog H) fe st,
      match c with HStr _ => length (tb_strings (k_tbl s1)) <= 256 | _ => True end ->
      read_var (program_of s2 callees) fe (RConst id) st = Ok (hconst_value c).
Proof.
  intros s n name c s1 s2 R E S. destruct (host_const _ _ _ _ _ E) as (t & Et & E1). destruct (const_spec _ _ _ _ (reachable_outside _ R) Et) as (N & k & Sy & K).
  pose proof (steps_after _ _ (step_after _ _ _ _ R E) S) as A. exists (tb_next (k_tbl s)).
  assert (F1 : find (is_value_sym name) (tb_syms (k_tbl s1)) = Some (mkSym (tb_next (k_tbl s)) name (SyConst k))).
  { rewrite E1. cbn [set_tbl k_tbl]. rewrite Sy, find_app. apply (none_find _ _ _ (value_is name)) in N. rewrite N. cbn. rewrite text_eqb_refl. reflexivity. }
  destruct (find_after _ _ _ A (fun _ _ => value_became name _ _) _ F1) as (y & F2 & Bc). apply became_same in Bc; [|reflexivity|exact I]. subst y.
  pose proof (find_some _ _ F2) as (I2 & _). pose proof (in_sym_at _ _ (af_uniq' _ _ A) I2) as A2. cbn [sy_id] in A2.
  split; [unfold lookup; cbn [env_of en_fun en_globals]; rewrite <- global_assoc; unfold global_ref; rewrite F2; reflexivity|]. split.
  - destruct c; cbn [hconst_type]; try (subst k; econstructor; apply denotes_at; exact A2). destruct K as (i & -> & _). eapply vt_str. apply denotes_at. exact A2.
  - intros H callees fe st Le. cbn [read_var program_of p_tbl]. rewrite A2. destruct c; try (subst k; reflexivity). destruct K as (i & -> & Nt). cbn [const_val hconst_value program_of p_tbl].
    destruct (af_strings _ _ A) as (x & X). rewrite E1 in Le, X. cbn [set_tbl k_tbl] in Le, X. assert (i < length (tb_strings t)) by (apply nth_error_Some; congruence).
    destruct (Nat.ltb_spec i 256); [|lia]. rewrite X, nth_error_app1 by auto. rewrite Nt. reflexivity.
Qed.
Print Assumptions bound_constant.

(** ** Types *)
Lemma host_type n name s s1 : host n (HType name) s = COk tt s1 -> exists t, register_type name (k_tbl s) = COk tt t /\ s1 = set_tbl s t.
Proof. unfold host, kon_tbl. destruct (register_type name (k_tbl s)) as [[] t| | | | |]; try discriminate. intros [= <-]. eauto. Qed.

Definition builtin (name : text) : Prop := In name (map text_of ["void"; "bool"; "int"; "float"; "str"; "any"]%string).
Lemma prim_none name : prim_tag name = None <-> ~ builtin name.
Proof.
  unfold prim_tag, builtin. split.
  - intros E I. cbn [map In] in I. repeat (destruct I as [<-|I]; [vm_compute in E; discriminate E|]). exact I.
  - intros N. repeat match goal with |- (if text_eqb ?a ?b then _ else _) = _ => let Q := fresh in destruct (text_eqb a b) eqn:Q; [exfalso; apply N; apply text_eqb_eq in Q; subst; cbn; tauto|] end. reflexivity.
Qed.

(** A registered type is spelled by its name from then on, in programs and in
    signatures, and is a type of its own: registering always succeeds, and unless
    the name is taken by a structure a program has defined or by a type of the
    language, the name stands for a type in which nothing can be stored but
    values of that type. *)
Theorem registered_type : forall s n name, reachable s -> exists s1, host n (HType name) s = COk tt s1 /\
  (~ builtin name -> (forall y fs, first (a_type name) (tb_syms (k_tbl s)) y -> sy_body y <> SyStruct true fs) ->
   exists id, forall s2, steps s1 s2 ->
     (forall t, tk t = IDENT -> tk_lexeme t = Some name -> spells_type (k_tbl s2) [t] (GSym id) (k_tbl s2)) /\
     is_type (k_tbl s2) (GSym id) /\
     (forall g, assigns (k_tbl s2) g (GSym id) <-> exists id', g = GSym id' /\ denotes (k_tbl s2) id' name SyForeignTag)).
Proof.
  intros s n name R. pose proof (gd_unique _ _ (ld_good _ _ (reachable_loaded _ R))) as U.
  assert (X : exists t, register_type name (k_tbl s) = COk tt t /\ (~ builtin name -> (forall y fs, first (a_type name) (tb_syms (k_tbl s)) y -> sy_body y <> SyStruct true fs) ->
    exists id, find (is_type_named name) (tb_syms t) = Some (mkSym id name SyForeignTag))).
  { unfold register_type. destruct (prim_tag name) eqn:P.
    - eexists. split; [reflexivity|]. intros B. apply prim_none in B. congruence.
    - destruct (find (is_type_named name) (tb_syms (k_tbl s))) as [[id nm b]|] eqn:F.
      + pose proof (find_some _ _ F) as (I & Q). destruct b; try discriminate Q; cbn in Q; apply text_eqb_eq in Q; subst nm.
        * destruct defined.
          -- eexists. split; [reflexivity|]. intros _ Nd. exfalso. eapply Nd; [apply (find_first _ _ _ _ (type_is name)); exact F|reflexivity].
          -- eexists. split; [reflexivity|]. intros _ _. exists id. unfold put_body. cbn [set_syms tb_syms]. clear - F U. unfold unique in U. revert F U. generalize (tb_syms (k_tbl s)). induction l as [|y l IH]; cbn; [discriminate|].
             destruct (is_type_named name y) eqn:Q; [intros [= ->] _; cbn; rewrite Nat.eqb_refl; cbn; rewrite text_eqb_refl; reflexivity|]. intros F Un. inversion Un as [|? ? Ny Un']; subst.
             destruct (Nat.eqb_spec (sy_id y) id) as [Qi|Qi]; [|rewrite Q; auto]. exfalso. apply Ny. rewrite Qi. apply find_some in F as (I & _). apply (in_map sy_id) in I. exact I.
        * eexists. split; [reflexivity|]. intros _ _. eauto.
      + eexists. split; [reflexivity|]. intros _ _. eexists. cbn. rewrite find_app, F. cbn. rewrite text_eqb_refl. reflexivity. }
  destruct X as (t & Et & Ht). exists (set_tbl s t). assert (Eh : host n (HType name) s = COk tt (set_tbl s t)) by (unfold host, kon_tbl; rewrite Et; reflexivity).
  split; [exact Eh|]. intros B Nd. destruct (Ht B Nd) as (id & F1). exists id. intros s2 S. pose proof (steps_after _ _ (step_after _ _ _ _ R Eh) S) as A.
  destruct (find_after _ _ _ A (fun _ _ => type_became name _ _) _ F1) as (y & F2 & Bc). apply became_same in Bc; [|reflexivity|exact I]. subst y.
  pose proof (find_some _ _ F2) as (I2 & _). pose proof (in_sym_at _ _ (af_uniq' _ _ A) I2) as A2. cbn [sy_id] in A2. apply denotes_at in A2.
  split; [|split].
  - intros tok K Lx. eapply st_name; eauto. unfold tag_from_name. apply prim_none in B. rewrite B, F2. reflexivity.
  - eapply ty_foreign; eauto.
  - intros g. split.
    + apply denotes_at in A2. intros As. inversion As as [| | | | |a b nm d fs d' fs' Da Db|a b nm Da Db|g0 i nm inn Dn]; subst.
      * apply denotes_at in Db. congruence.
      * apply denotes_at in Db. assert (nm = name) as -> by congruence. eauto.
      * apply denotes_at in Dn. congruence.
    + intros (id' & -> & D). eapply as_foreign; eauto.
Qed.
Print Assumptions registered_type.


(** ** Macros *)
(** A macro can be bound once; from then on a [use] of its name runs it, and a
    [use] of any other name is a compile error. *)
Theorem macro_binding : forall s n name, reachable s ->
  ((exists s1, host n (HMacro name) s = COk tt s1) <-> none (a_macro name) (k_tbl s)) /\
  (forall s1 s2, host n (HMacro name) s = COk tt s1 -> steps s1 s2 -> exists y, In y (tb_syms (k_tbl s2)) /\ a_macro name y).
Proof.
  intros s n name R.
  assert (M : forall t, existsb (fun y => match sy_body y with SyModule => text_eqb (sy_name y) name | _ => false end) (tb_syms t) = false <-> none (a_macro name) t).
  { intros t. unfold none. induction (tb_syms t) as [|y l IH]; cbn; [split; auto|]. rewrite Bool.orb_false_iff, IH. split.
    - intros (Q & F). constructor; auto. intros (A & B). rewrite B, A, text_eqb_refl in Q. discriminate.
    - intros F. inversion F as [|? ? Ny F']; subst. split; auto. destruct (sy_body y) eqn:B; auto. destruct (text_eqb (sy_name y) name) eqn:Q; auto. apply text_eqb_eq in Q. exfalso. apply Ny. split; auto. }
  assert (E : forall s1, host n (HMacro name) s = COk tt s1 <-> none (a_macro name) (k_tbl s) /\ s1 = set_tbl s (snd (new_sym (k_tbl s) name SyModule))).
  { intros s1. unfold host, kon_tbl, bind_macro. rewrite <- M. destruct (existsb _ _); [split; [discriminate|intros ([=] & _)]|]. split; [intros [= <-]; auto|intros (_ & ->); reflexivity]. }
  split.
  - split; [intros (s1 & H); apply E in H; tauto|]. intros N. eexists. apply E. split; [exact N|reflexivity].
  - intros s1 s2 H S. pose proof (steps_after _ _ (step_after _ _ _ _ R H) S) as A. apply E in H as (_ & E1).
    destruct (after_rows _ _ A) as (k & m & K & F). exists (mkSym (tb_next (k_tbl s)) name SyModule). split; [|split; reflexivity].
    rewrite K. apply in_or_app. left. rewrite E1 in F. cbn in F. apply Forall2_app_inv_l in F as (k1 & k2 & _ & F2 & ->). inversion F2 as [|? ? ? ? Bc]; subst. apply became_same in Bc; [|reflexivity|exact I]. subst. apply in_or_app. right. left. reflexivity.
Qed.
Theorem use_runs_macro : forall mods l m args y ss s,
  ((exists z, In z (tb_syms (k_tbl s)) /\ a_macro m z) -> length args <= 128 ->
     run_uses mods (SUse l m args y :: ss) s = match mods m args y s with
       | COk true s' => run_uses mods ss s' | COk false s' => CFail s' | CFail s' => CFail s'
       | CAbort => CAbort | CUB => CUB | CHang => CHang | CFuel => CFuel end) /\
  (none (a_macro m) (k_tbl s) -> run_uses mods (SUse l m args y :: ss) s = CFail s).
Proof.
  intros mods l m args y ss s. split.
  - intros (z & I & A & B) L. cbn [run_uses]. unfold cbind at 1. replace (existsb _ _) with true.
    + destruct (Nat.ltb_spec 128 (length args)); [lia|]. unfold cbind. destruct (mods m args y s) as [[|] s'| | | | |]; reflexivity.
    + symmetry. apply existsb_exists. exists z. split; auto. rewrite B, A. apply text_eqb_refl.
  - intros N. cbn [run_uses]. unfold cbind. replace (existsb _ _) with false; [reflexivity|]. symmetry. apply Bool.not_true_is_false. intros Q. apply existsb_exists in Q as (z & I & Q).
    unfold none in N. rewrite Forall_forall in N. apply (N z I). destruct (sy_body z) eqn:B; try discriminate. apply text_eqb_eq in Q. split; auto.
Qed.

(** ** A case: a host binds a type, a constant, a function that uses the type and a macro, to a state *)
Definition case_ops : list host_op :=
  [HType (text_of "file"); HConst (text_of "HOME") (HStr (text_of "/root")); HFun (text_of "open(str, file?, ...): file then") 9; HMacro (text_of "io")].
Fixpoint hosts (l : list host_op) : km unit := match l with [] => cret tt | o :: l => fun s => match host 20 o s with COk _ s1 => hosts l s1 | r => r end end.
Definition case_state : kst := Eval vm_compute in match hosts case_ops demo_s1 with COk _ s => s | _ => init_kst end.
Example bind_case : hosts case_ops demo_s1 = COk tt case_state /\
  map sy_body (tb_syms (k_tbl case_state)) =
    map sy_body (tb_syms (k_tbl demo_s1)) ++ [SyForeignTag; SyConst (KStr 0); SyNullable (GSym 3); SyForeign 3 [GStr; GSym 5] true (GSym 3) 9; SyModule] /\
  no_function_named (k_tbl demo_s1) (text_of "open") /\ none (a_value (text_of "HOME")) (k_tbl demo_s1) /\ ~ builtin (text_of "file").
Proof.
  split; [vm_compute; reflexivity|]. split; [vm_compute; reflexivity|]. split; [apply no_function_at; vm_compute; reflexivity|].
  split; [apply (none_find _ _ _ (value_is _)); vm_compute; reflexivity|]. apply prim_none. vm_compute. reflexivity.
Qed.
