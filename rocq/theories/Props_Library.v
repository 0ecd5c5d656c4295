(** * C48: the standard library's typed arrays and dicts are what they say *)
From Verif Require Import Base Token Lexer LexerSpec Values Heap Strings Code Syntax Symbols Parser Resolve VM Source Compile
  CompileProofs Layout TableInv ParserInv Host HostInv LayTable Whole Preserve TagTable TagParse TagWhole Typing TypingProofs
  Grammar BindSpec BindProofs Std StdBox Props_Compile Props_Parser Props_Bind Props_Accept Props_Names StdBind SigText LibrarySpec LibraryProofs LibDict.
Local Open Scope nat_scope.

(** ** [use array("E") as A] *)

(** It is refused exactly when there is not one argument, no [as] name, or neither
    name is that of a type; then nothing has changed. *)
Theorem array_refused : forall addr n args as_ s s',
  array_macro addr n args as_ s = COk false s' <->
  s' = s /\ ~ exists E A, args = [E] /\ as_ = Some A /\ ((exists g, usable (k_tbl s) A g) \/ (exists g, usable (k_tbl s) E g)).
Proof.
  intros addr n args as_ s s'. unfold array_macro. destruct args as [|E [|]]; [|destruct as_ as [A|]|].
  1, 3, 4: (split; [intros [= <-]; split; auto; intros (? & ? & ? & ? & _); discriminate|intros (-> & _); reflexivity]).
  destruct (find_type_symbol (k_tbl s) A) as [g|] eqn:FA.
  { apply find_type_is in FA. split; [discriminate|]. intros (_ & N). exfalso. apply N. exists E, A. eauto 6. }
  destruct (find_type_symbol (k_tbl s) E) as [g|] eqn:FE.
  { split.
    - unfold cbind. destruct (host n (HType A) s) as [[] s1| | | | |]; try discriminate. destruct (bind_all _ _ _ s1) as [[] s2| | | | |]; discriminate.
    - intros (_ & N). exfalso. apply N. apply find_type_is in FE. exists E, A. eauto 6. }
  split.
  - intros [= <-]. split; auto. intros (E' & A' & [= <-] & [= <-] & [(g & U)|(g & U)]); apply find_type_is in U; congruence.
  - intros (-> & _). reflexivity.
Qed.
Print Assumptions array_refused.

(** When [A] is a type already it succeeds without doing anything, whatever [E]. *)
Theorem array_already : forall addr n E A s g, usable (k_tbl s) A g -> array_macro addr n [E] (Some A) s = COk true s.
Proof. intros addr n E A s g U. apply find_type_is in U. unfold array_macro. rewrite U. reflexivity. Qed.

Definition primitive (g : tag) : bool := match g with GBool | GInt | GFloat => true | _ => false end.
Definition sortable (g : tag) : bool := match g with GInt => true | _ => false end.
(** The buffer for signatures has 512 characters. *)
Definition short (A E : text) : Prop := 2 * length A + length E <= 484.

Lemma usable_not_builtin t A : ~ (exists g, usable t A g) -> ~ builtin A.
Proof.
  intros N I. apply N. change (In A (map fst builtin_types)) in I. apply in_map_iff in I as ((x & g) & <- & I). exists g. split; [left; exact I|].
  intros y fs -> _. cbn in I. repeat (destruct I as [I|I]; [discriminate I|]). destruct I.
Qed.
Lemma usable_not_defined t A : ~ (exists g, usable t A g) -> forall y fs, first (a_type A) (tb_syms t) y -> sy_body y <> SyStruct true fs.
Proof.
  intros N y fs F Q. apply N. exists (GSym (sy_id y)). split; [right; [apply (usable_not_builtin _ _ N)|exact F]|]. intros y' fs' _ F'.
  apply (find_first _ _ _ _ (type_is A)) in F, F'. rewrite F in F'. injection F' as <-. congruence.
Qed.
Lemma steps_names s s' x g : reachable s -> steps s s' -> names_type (k_tbl s) x g -> names_type (k_tbl s') x g.
Proof.
  intros R S. apply names_keep. intros y F. destruct (find_after _ _ _ (steps_after _ _ R S) (fun _ _ => type_became x _ _) _ F) as (y' & F' & Bc). exists y'. split; [exact F'|apply Bc].
Qed.
Lemma steps_all_names s s' xs gs : reachable s -> steps s s' -> Forall2 (names_type (k_tbl s)) xs gs -> Forall2 (names_type (k_tbl s')) xs gs.
Proof. intros R S F. induction F; constructor; auto. eapply steps_names; eauto. Qed.

Section Made.
Variables (addr : nat -> nat) (s : kst) (A E : text) (g : tag).
Hypotheses (R : reachable s) (NA : is_name A) (NE : is_name E) (Sh : short A E).
Hypotheses (UA : ~ exists a, usable (k_tbl s) A a) (UE : usable (k_tbl s) E g).
Notation api := (array_api A E (primitive g) (sortable g)).

Lemma made_sigs : array_sigs A E (match g with GBool | GInt | GFloat => true | _ => false end) (match g with GInt => true | _ => false end) = map sig_of api.
Proof. apply array_rows. exact Sh. Qed.
Lemma made_register n : exists s1 a, host n (HType A) s = COk tt s1 /\ names_type (k_tbl s1) A (GSym a) /\ all_known (k_tbl s1) api /\
  register_type A (k_tbl s) = COk tt (k_tbl s1).
Proof.
  destruct (registered_type s n A R) as (s1 & E1 & H). destruct (H (usable_not_builtin _ _ UA) (usable_not_defined _ _ UA)) as (a & Ha).
  exists s1, a. split; [exact E1|]. pose proof (Ha s1 (st_refl _)) as (Sp & _).
  assert (Nt : names_type (k_tbl s1) A (GSym a)).
  { pose proof (Sp (mkTok IDENT 0 0 (Some A) false 0 0) eq_refl eq_refl) as X. inversion X as [? ? ? ? ? ? L Tg| ]; subst. cbn in L. injection L as <-.
    assert (Fs : exists y, find (is_type_named A) (tb_syms (k_tbl s1)) = Some y).
    { destruct (find (is_type_named A) (tb_syms (k_tbl s))) as [y|] eqn:F.
      - destruct (find_after _ _ _ (steps_after s s1 R (st_host _ _ _ _ _ E1 (st_refl _))) (fun _ _ => type_became A _ _) _ F) as (y' & F' & _). eauto.
      - destruct (host_type _ _ _ _ E1) as (t & Et & ->). unfold register_type in Et. rewrite (proj2 (prim_none A) (usable_not_builtin _ _ UA)), F in Et. injection Et as <-.
        eexists. cbn. rewrite find_app, F. cbn. rewrite text_eqb_refl. reflexivity. }
    unfold tag_from_name in Tg. pose proof (usable_not_builtin _ _ UA) as B. pose proof (proj2 (prim_none A) B) as P. rewrite P in Tg.
    destruct Fs as (y & F). rewrite F in Tg. injection Tg as <-. right; [exact B|]. apply (find_first _ _ _ _ (type_is A)). exact F. }
  split; [exact Nt|]. split; [|destruct (host_type _ _ _ _ E1) as (t & Et & ->); exact Et].
  eapply array_rows_known; [exact Nt|]. eapply steps_names; [exact R|eapply st_host; [exact E1|apply st_refl]|apply UE].
Qed.

Lemma made_free n s1 : host n (HType A) s = COk tt s1 -> forall nm,
  (none (a_foreign nm) (k_tbl s1) <-> none (a_foreign nm) (k_tbl s)) /\ reference_function (k_tbl s1) nm = reference_function (k_tbl s) nm.
Proof.
  intros E1 nm. destruct (host_type _ _ _ _ E1) as (t & Et & ->). pose proof (gd_unique _ _ (ld_good _ _ (reachable_loaded _ R))) as U. cbn [set_tbl k_tbl].
  split.
  - rewrite !(none_find _ _ _ (foreign_is nm)), (register_keeps _ _ _ _ Et U); [reflexivity|]. intros [? ? b]. destruct b; cbn; auto; discriminate.
  - unfold reference_function. rewrite (register_keeps _ _ _ _ Et U); [reflexivity|]. intros [? ? b]. destruct b; cbn; auto; discriminate.
Qed.

(** Otherwise [A] is made a type and the functions of the library are bound with
    the signatures of [array_api], provided no foreign function has one of the
    names. *)
Theorem array_made : 
  ((exists n s', array_macro addr n [E] (Some A) s = COk true s') <-> Forall (fun r => none (a_foreign (r_name r)) (k_tbl s)) api) /\
  forall n s', array_macro addr n [E] (Some A) s = COk true s' ->
    exists s1 t', host n (HType A) s = COk tt s1 /\ adds addr (k_tbl s1) api t' /\ s' = set_tbl s1 t'.
Proof.
  assert (FA : find_type_symbol (k_tbl s) A = None).
  { destruct (find_type_symbol (k_tbl s) A) as [a|] eqn:F; auto. exfalso. apply UA. exists a. apply find_type_is. exact F. }
  pose proof (proj2 (find_type_is _ _ _) UE) as FE.
  assert (Fwd : forall n s', array_macro addr n [E] (Some A) s = COk true s' ->
    exists s1 t', host n (HType A) s = COk tt s1 /\ adds addr (k_tbl s1) api t' /\ s' = set_tbl s1 t').
  { intros n s' M. unfold array_macro in M. rewrite FA, FE in M. destruct (made_register n) as (s1 & a & E1 & Na & K & _). unfold cbind at 1 in M. rewrite E1 in M.
    rewrite made_sigs in M. unfold cbind in M. destruct (bind_all addr n (map sig_of api) s1) as [[] s2| | | | |] eqn:B; try discriminate. injection M as <-.
    destruct (bind_all_sound addr n api s1 s2 (array_rows_ok A E _ _ NA NE) K B) as (t' & Ad & ->). eauto 6. }
  split; [|exact Fwd]. split.
  - intros (n & s' & M). destruct (Fwd _ _ M) as (s1 & t' & E1 & Ad & _). destruct (made_register n) as (s1' & a & E1' & Na & K & _).
    assert (s1' = s1) as -> by congruence. pose proof (proj1 (adds_free addr api (k_tbl s1) K (array_rows_nodup A E _ _)) (ex_intro _ t' Ad)) as F.
    eapply Forall_impl; [|exact F]. intros r Fr. apply (made_free n s1 E1 (r_name r)). exact Fr.
  - intros F. destruct (made_register 0) as (s1 & a & E1 & Na & K & _).
    assert (F1 : Forall (fun r => none (a_foreign (r_name r)) (k_tbl s1)) api) by (eapply Forall_impl; [|exact F]; intros r Fr; apply (made_free 0 s1 E1 (r_name r)); exact Fr).
    destruct (proj2 (adds_free addr api (k_tbl s1) K (array_rows_nodup A E _ _)) F1) as (t' & Ad).
    destruct (bind_all_complete addr _ _ _ Ad (array_rows_ok A E _ _ NA NE)) as (n & H). exists n, (set_tbl s1 t').
    unfold array_macro. rewrite FA, FE. unfold cbind at 1. change (host n (HType A) s) with (host 0 (HType A) s). rewrite E1, made_sigs. unfold cbind. rewrite (H n s1) by auto. reflexivity.
Qed.
End Made.
Print Assumptions array_made.

(** The macro does only what a host may do, so all that is proved about the states
    a host can reach holds with it. *)
Lemma array_macro_steps addr n args as_ s b s' : array_macro addr n args as_ s = COk b s' -> steps s s'.
Proof.
  intros M. unfold array_macro in M. destruct args as [|E [|]]; try (injection M as _ <-; apply st_refl). destruct as_ as [A|]; try (injection M as _ <-; apply st_refl).
  destruct (find_type_symbol (k_tbl s) A); [injection M as _ <-; apply st_refl|]. destruct (find_type_symbol (k_tbl s) E); [|injection M as _ <-; apply st_refl].
  unfold cbind in M. destruct (host n (HType A) s) as [[] s1| | | | |] eqn:E1; try discriminate.
  destruct (bind_all _ _ _ s1) as [[] s2| | | | |] eqn:B; try discriminate. injection M as _ <-. eapply st_host; [exact E1|]. eapply steps_bind_all; exact B.
Qed.

(** ** What programs see from then on *)

(** [f] is what calling row [r] means: the library's function, with the types of the row *)
Definition is_row (addr : nat -> nat) (t : tbl) (r : row) (f : sym) : Prop :=
  exists id i gs g, f = mkSym id (r_name r) (SyForeign i gs (r_va r) g (addr (r_place r))) /\
    Forall2 (names_type t) (r_args r) gs /\ names_type t (r_ret r) g.

Theorem array_functions : forall addr s A E g n s' s2,
  reachable s -> is_name A -> is_name E -> short A E -> ~ (exists a, usable (k_tbl s) A a) -> usable (k_tbl s) E g ->
  array_macro addr n [E] (Some A) s = COk true s' -> steps s' s2 ->
  exists a, names_type (k_tbl s2) A (GSym a) /\ is_type (k_tbl s2) (GSym a) /\
    (forall x, assigns (k_tbl s2) x (GSym a) <-> exists a', x = GSym a' /\ denotes (k_tbl s2) a' A SyForeignTag) /\
    forall r, In r (array_api A E (primitive g) (sortable g)) ->
      (no_function_named (k_tbl s) (r_name r) -> exists f, function_named (k_tbl s2) (r_name r) f /\ is_row addr (k_tbl s2) r f) /\
      (forall f, function_named (k_tbl s) (r_name r) f -> exists f', function_named (k_tbl s2) (r_name r) f' /\ sy_id f' = sy_id f).
Proof.
  intros addr s A E g n s' s2 R NA NE Sh UA UE M S. destruct (array_made addr s A E g R NA NE Sh UA UE) as (_ & Fwd).
  destruct (Fwd n s' M) as (s1 & t' & E1 & Ad & ->). destruct (made_register s A E g R UA UE n) as (s1' & a0 & E1' & Na0 & K & _).
  assert (s1' = s1) as -> by congruence. clear E1'.
  destruct (registered_type s n A R) as (s1' & E1' & H). assert (s1' = s1) as -> by congruence. clear E1'.
  destruct (H (usable_not_builtin _ _ UA) (usable_not_defined _ _ UA)) as (a & Ha). pose proof (step_after _ _ _ _ R E1) as R1.
  assert (S1 : steps s1 (set_tbl s1 t')).
  { destruct (bind_all_complete addr _ _ _ Ad (array_rows_ok A E _ _ NA NE)) as (n1 & B). eapply steps_bind_all. apply (B n1 s1); auto. }
  assert (S2 : steps s1 s2) by (eapply steps_app; eauto). destruct (Ha s2 S2) as (Sp & Ty & As). exists a.
  assert (R' : reachable (set_tbl s1 t')) by (destruct R1 as (z & C & Z); exists z; split; [exact C|eapply steps_app; eauto]).
  assert (a0 = a) as ->.
  { destruct (Ha s1 (st_refl _)) as (Sp1 & _). pose proof (Sp1 (mkTok IDENT 0 0 (Some A) false 0 0) eq_refl eq_refl) as X. inversion X as [? ? ? ? ? ? L Tg|]; subst. cbn in L. injection L as <-.
    apply names_spelt in Na0. unfold spelt_as in Na0. congruence. }
  split; [exact (steps_names s1 s2 A (GSym a) R1 S2 Na0)|]. split; [exact Ty|]. split; [exact As|].
  intros r I. pose proof (adds_function _ _ _ _ Ad (array_rows_nodup A E _ _) K r I) as F. destruct (made_free s A R n s1 E1 (r_name r)) as (_ & Fr). rewrite Fr in F.
  pose proof (steps_after _ _ R' S) as Af. split.
  - intros Nf. apply no_function_at in Nf. rewrite Nf in F. destruct F as (gs & gr & id & i & Fa & Gr & F).
    destruct (find_after _ _ _ Af (fun _ _ => function_became (r_name r) _ _) _ F) as (f' & F2 & Bc). apply became_same in Bc; [|reflexivity|exact Logic.I]. subst f'.
    eexists. split; [apply function_at; exact F2|]. exists id, i, gs, gr. split; [reflexivity|].
    split; [exact (steps_all_names s1 s2 _ _ R1 S2 Fa)|exact (steps_names s1 s2 _ _ R1 S2 Gr)].
  - intros f Ff. apply function_at in Ff. rewrite Ff in F. destruct (find_after _ _ _ Af (fun _ _ => function_became (r_name r) _ _) _ F) as (f' & F2 & Bc).
    exists f'. split; [apply function_at; exact F2|apply Bc].
Qed.
Print Assumptions array_functions.

(** A call of such a function is well typed exactly when its arguments are of the
    row's types, and then has the row's type. *)
Theorem row_call_types : forall addr s r f gs g es te, reachable s -> is_row addr (k_tbl s) r f -> function_named (k_tbl s) (r_name r) f ->
  Forall2 (names_type (k_tbl s)) (r_args r) gs -> names_type (k_tbl s) (r_ret r) g ->
  (types (k_tbl s) (ECall (r_name r) es) te <-> exists tes, te = TCall (r_name r) tes g /\ arguments (k_tbl s) (map Some gs) (r_va r) es tes).
Proof.
  intros addr s r f gs g es te R (id & i & gs' & g' & -> & Fa & G) Fn Fa' G'.
  assert (gs' = gs) as -> by (eapply all_one; eauto). assert (g' = g) as -> by (eapply names_one; eauto). split.
  - intros T. inversion T; subst. match goal with H : function_named _ _ ?f0, Sg : Typing.signature (sy_body ?f0) _ _ _ |- _ =>
      apply function_at in Fn, H; rewrite Fn in H; injection H as <-; cbn in Sg; inversion Sg; subst end. eauto.
  - intros (tes & -> & Ar). eapply ty_ecall; [exact Fn|constructor|]. exact Ar.
Qed.
Print Assumptions row_call_types.

(** Indexing: [a[i]] on such an array has the element type. *)
Theorem array_indexing : forall addr s A E g n s' s2 a ea ta ei ti,
  reachable s -> is_name A -> is_name E -> short A E -> ~ (exists a, usable (k_tbl s) A a) -> usable (k_tbl s) E g ->
  array_macro addr n [E] (Some A) s = COk true s' -> steps s' s2 ->
  no_function_named (k_tbl s) (A ++ text_of "_get_index") -> names_type (k_tbl s2) A a ->
  types (k_tbl s2) ea ta -> tag_of ta = a -> types (k_tbl s2) ei ti ->
  exists f set gi, function_named (k_tbl s2) (A ++ text_of "_get_index") f /\ is_row addr (k_tbl s2) (Row (A ++ text_of "_get_index") [A; text_of "int"] false E 5) f /\
    names_type (k_tbl s2) E gi /\ types (k_tbl s2) (EIndex ea ei) (TIndex ta ti (sy_id f) set gi).
Proof.
  intros addr s A E g n s' s2 a ea ta ei ti R NA NE Sh UA UE M S Nf Nt Ta Tg Ti.
  destruct (array_functions addr s A E g n s' s2 R NA NE Sh UA UE M S) as (a' & Na & Ty & _ & Rows).
  assert (a = GSym a') as -> by (eapply names_one; eauto).
  destruct (Rows (Row (A ++ text_of "_get_index") [A; text_of "int"] false E 5)) as (X & _); [cbn; tauto|]. destruct (X Nf) as (f & Fn & Ir). clear X Rows. cbn [r_name] in Fn.
  destruct Ir as (id & i & gs & gr & Ef & Fa & Gr). 
  assert (Ds : exists b, denotes (k_tbl s2) a' A b).
  { inversion Na as [? Ib|y B Fy]; subst.
    - exfalso. cbn in Ib. repeat (destruct Ib as [Ib|Ib]; [discriminate Ib|]). destruct Ib.
    - destruct Fy as (l1 & l2 & El & (Ny & _) & _). exists (sy_body y). apply denotes_at.
      assert (R2 : reachable s2) by (destruct R as (z & C & Z); exists z; split; [exact C|eapply steps_app; [exact Z|eapply steps_app; [eapply array_macro_steps; exact M|exact S]]]).
      pose proof (gd_unique _ _ (ld_good _ _ (reachable_loaded _ R2))) as U. rewrite (in_sym_at _ y U) by (rewrite El; apply in_or_app; right; left; reflexivity).
      destruct y. cbn in *. subst. reflexivity. }
  destruct Ds as (b & Ds).
  assert (Sg : getter A = A ++ text_of "_get_index").
  { unfold getter. apply firstn_all2. unfold short in Sh. rewrite app_length. cbn. lia. }
  assert (Se : exists set, setter_of (k_tbl s2) A set).
  { destruct (reference_function (k_tbl s2) (setter A)) as [q|] eqn:Q; [exists (Some (sy_id q)); constructor; apply function_at; exact Q|exists None; constructor; apply no_function_at; exact Q]. }
  destruct Se as (set & Se). exists f, set, gr. split; [exact Fn|]. split; [subst f; exists id, i, gs, gr; auto|]. split; [exact Gr|].
  eapply ty_eindex; [exact Ta|exact Ti|rewrite Tg; econstructor; exact Ds|rewrite Sg; exact Fn|subst f; constructor|exact Se].
Qed.
Print Assumptions array_indexing.

(** ** Dicts *)

(** Binding the dicts works exactly when no foreign function has one of the names *)
Theorem dict_made : forall addr s, reachable s ->
  ((exists n s', bind_standard_dict addr n s = COk tt s') <->
   Forall (fun r => none (a_foreign (r_name r)) (k_tbl s)) (dict_api ++ dict_str_int_api)).
Proof.
  intros addr s R. split; [|apply dict_made_run; exact R]. intros (n & s' & M).
  destruct (dict_bound addr n s s' R M) as (s1 & s2 & s3 & t4 & s5 & t6 & Run & _). eapply dict_run_free; eauto.
Qed.
Print Assumptions dict_made.

(** ... and then programs see the functions, unless one of the name was there *)
Theorem dict_functions : forall addr s n s' s2 r, reachable s -> bind_standard_dict addr n s = COk tt s' -> steps s' s2 ->
  In r (dict_api ++ dict_str_int_api) ->
  (no_function_named (k_tbl s) (r_name r) -> exists f, function_named (k_tbl s2) (r_name r) f /\ is_row addr (k_tbl s2) r f) /\
  (forall f, function_named (k_tbl s) (r_name r) f -> exists f', function_named (k_tbl s2) (r_name r) f' /\ sy_id f' = sy_id f).
Proof.
  intros addr s n s' s2 r R M S I. destruct (dict_bound addr n s s' R M) as (z1 & z2 & z3 & t4 & z5 & t6 & Run & ->).
  pose proof (dict_rows_later addr n s _ _ _ _ _ _ s2 r R Run S I) as X. split.
  - intros N. apply no_function_at in N. rewrite N in X. destruct X as (id & i & gs & g & F & Fa & G). eexists. split; [apply function_at; exact F|].
    exists id, i, gs, g. auto.
  - intros f F. apply function_at in F. rewrite F in X. destruct X as (f' & F' & E). exists f'. split; [apply function_at; exact F'|exact E].
Qed.
Print Assumptions dict_functions.

(** ... and the four types are types of their own, unless a program had defined a
    structure of the name *)
Theorem dict_types : forall addr s n s' s2 x, reachable s -> bind_standard_dict addr n s = COk tt s' -> steps s' s2 ->
  In x (map text_of ["array_any"; "array_str"; "dict"; "dict_str_int"]%string) ->
  (forall y fs, first (a_type x) (tb_syms (k_tbl s)) y -> sy_body y <> SyStruct true fs) ->
  exists a, names_type (k_tbl s2) x (GSym a) /\ is_type (k_tbl s2) (GSym a) /\
    (forall g, assigns (k_tbl s2) g (GSym a) <-> exists a', g = GSym a' /\ denotes (k_tbl s2) a' x SyForeignTag).
Proof.
  intros addr s n s' s2 x R M S I U. destruct (dict_bound addr n s s' R M) as (z1 & z2 & z3 & t4 & z5 & t6 & Run & ->).
  exact (dict_types_later addr n s _ _ _ _ _ _ s2 R Run S x I U).
Qed.
Print Assumptions dict_types.

(** ** Where the library is not what it says *)

Lemma dict_bound_steps addr n s s' : reachable s -> bind_standard_dict addr n s = COk tt s' -> steps s s'.
Proof.
  intros R M. unfold bind_standard_dict in M.
  apply cbind_ok in M as ([] & s1 & E1 & M). apply cbind_ok in M as ([] & s2 & E2 & M). apply cbind_ok in M as ([] & s3 & E3 & M).
  apply cbind_ok in M as ([] & s4 & E4 & M). apply cbind_ok in M as ([] & s5 & E5 & M).
  eapply st_host; [exact E1|]. eapply st_host; [exact E2|]. eapply st_host; [exact E3|]. eapply steps_app; [eapply steps_bind_all; exact E4|].
  eapply st_host; [exact E5|]. eapply steps_bind_all; exact M.
Qed.

(** The types of what [dict_keys] and [dict_values] give are registered by name
    only, so the [use] that would bind their functions succeeds and binds none:
    whatever the element type asked for, and whenever it is asked. *)
Theorem array_of_registered_name_refuted : forall addr s n s' s2 m E x, reachable s -> bind_standard_dict addr n s = COk tt s' -> steps s' s2 ->
  In x (map text_of ["array_any"; "array_str"]%string) ->
  (forall y fs, first (a_type x) (tb_syms (k_tbl s)) y -> sy_body y <> SyStruct true fs) ->
  array_macro addr m [E] (Some x) s2 = COk true s2.
Proof.
  intros addr s n s' s2 m E x R M S I U.
  destruct (dict_types addr s n s' s2 x R M S) as (a & Na & Ty & As); [cbn in I |- *; tauto|exact U|].
  apply (array_already addr m E x s2 (GSym a)). split; [exact Na|]. intros y fs Eg F B.
  assert (D : exists b, denotes (k_tbl s2) a x SyForeignTag /\ b = 0).
  { exists 0. split; auto. assert (A : assigns (k_tbl s2) (GSym a) (GSym a)).
    { assert (Ds : exists b, denotes (k_tbl s2) a x b /\ b = sy_body y).
      { exists (sy_body y). split; auto. injection Eg as ->. destruct F as (l1 & l2 & El & (Ny & _) & _). apply denotes_at.
        assert (R2 : reachable s2) by (destruct R as (z & C & Z); exists z; split; [exact C|eapply steps_app; [exact Z|eapply steps_app; [eapply dict_bound_steps; [exists z; split; [exact C|exact Z]|exact M]|exact S]]]).
        pose proof (gd_unique _ _ (ld_good _ _ (reachable_loaded _ R2))) as Un. rewrite (in_sym_at _ y Un) by (rewrite El; apply in_or_app; right; left; reflexivity).
        destruct y. cbn in *. subst. reflexivity. }
      destruct Ds as (b & Ds & ->). rewrite B in Ds. inversion Ty; subst.
      - eapply as_struct; eauto.
      - eapply as_foreign; eauto.
      - apply denotes_at in Ds. match goal with H : denotes _ _ _ (SyNullable _) |- _ => apply denotes_at in H; congruence end. }
    apply As in A as (a' & [= <-] & D). exact D. }
  destruct D as (_ & D & _). injection Eg as ->. destruct F as (l1 & l2 & El & (Ny & _) & _).
  assert (R2 : reachable s2) by (destruct R as (z & C & Z); exists z; split; [exact C|eapply steps_app; [exact Z|eapply steps_app; [eapply dict_bound_steps; [exists z; split; [exact C|exact Z]|exact M]|exact S]]]).
  pose proof (gd_unique _ _ (ld_good _ _ (reachable_loaded _ R2))) as Un. apply denotes_at in D. rewrite (in_sym_at _ y Un) in D by (rewrite El; apply in_or_app; right; left; reflexivity).
  injection D as D. rewrite D in B. discriminate.
Qed.
Print Assumptions array_of_registered_name_refuted.

(** The function that makes a typed array takes arguments of any types whatever *)
Theorem typed_array_holds_anything_refuted : forall addr s A E g n s' s2 es tes,
  reachable s -> is_name A -> is_name E -> short A E -> ~ (exists a, usable (k_tbl s) A a) -> usable (k_tbl s) E g ->
  array_macro addr n [E] (Some A) s = COk true s' -> steps s' s2 -> no_function_named (k_tbl s) A ->
  Forall2 (types (k_tbl s2)) es tes ->
  exists a, names_type (k_tbl s2) A (GSym a) /\ types (k_tbl s2) (ECall A es) (TCall A tes (GSym a)).
Proof.
  intros addr s A E g n s' s2 es tes R NA NE Sh UA UE M S Nf T. 
  destruct (array_functions addr s A E g n s' s2 R NA NE Sh UA UE M S) as (a & Na & _ & _ & Rows). exists a. split; [exact Na|].
  destruct (Rows (Row A [] true A (if primitive g then 1 else 0))) as (X & _); [left; reflexivity|]. destruct (X Nf) as (f & Fn & Ir). cbn [r_name] in Fn.
  assert (R2 : reachable s2) by (destruct R as (z & C & Z); exists z; split; [exact C|eapply steps_app; [exact Z|eapply steps_app; [eapply array_macro_steps; exact M|exact S]]]).
  apply (row_call_types addr s2 _ f [] (GSym a) es _ R2 Ir Fn); [constructor|exact Na|]. exists tes. split; [reflexivity|].
  clear -T. induction T; constructor; auto.
Qed.
Print Assumptions typed_array_holds_anything_refuted.

(** ** A case: both libraries are bound, and a source uses arrays of whole numbers *)
Definition lib_addr (p : nat) : nat := 100 + p.
Definition lib_mods (m : text) (args : list text) (as_ : option text) (x : kst) : cres kst bool :=
  if text_eqb m (text_of "array") then array_macro lib_addr 60 args as_ x else CFail x.
Definition lib_s0 : kst := Eval vm_compute in match bind_standard_array 20 demo_s1 with COk _ s => s | _ => init_kst end.
Definition lib_s1 : kst := Eval vm_compute in match bind_standard_dict lib_addr 60 lib_s0 with COk _ s => s | _ => init_kst end.
Definition lib_used : kst := Eval vm_compute in match array_macro lib_addr 60 [text_of "int"] (Some (text_of "ints")) lib_s1 with COk _ s => s | _ => init_kst end.
Definition lib_src : text := text_of "use array(""int"") as ints
xs := ints(4, 2)
ints_push(xs, 7)
d := dict(""a"", xs[0] + ints_len(xs))
k := d[""a""]
ys := ints(""oops"")
m: int = 0
m = ints_get(ys, 0)
m = ys[0]".
Definition lib_ts : list tstmt := Eval vm_compute in match compile_string 200 lib_mods None lib_src lib_s1 with COk ts _ => ts | _ => [] end.
Definition lib_s2 : kst := Eval vm_compute in match compile_string 200 lib_mods None lib_src lib_s1 with COk _ s => s | _ => init_kst end.

Lemma lib_bound : bind_standard_array 20 demo_s1 = COk tt lib_s0 /\ bind_standard_dict lib_addr 60 lib_s0 = COk tt lib_s1 /\
  array_macro lib_addr 60 [text_of "int"] (Some (text_of "ints")) lib_s1 = COk true lib_used.
Proof.
  split; [vm_cast_no_check (eq_refl (COk tt lib_s0))|]. split; [vm_cast_no_check (eq_refl (COk tt lib_s1))|vm_cast_no_check (eq_refl (COk true lib_used))].
Qed.
Lemma lib_compiles : compile_string 200 lib_mods None lib_src lib_s1 = COk lib_ts lib_s2.
Proof. vm_cast_no_check (eq_refl (COk lib_ts lib_s2)). Qed.
Lemma lib_reachable : reachable lib_s0 /\ reachable lib_s1.
Proof.
  destruct lib_bound as (E0 & E1 & _). assert (R0 : reachable lib_s0) by exact (host_reach 20 (HMacro (text_of "array")) demo_s1 lib_s0 demo_reachable E0). split; [exact R0|].
  pose proof (dict_bound_steps _ _ _ _ R0 E1) as S. destruct R0 as (z & C & Z). exists z. split; [exact C|eapply steps_app; eauto].
Qed.
(** The conditions of the theorems hold in it *)
Example library_conditions : reachable lib_s1 /\ is_name (text_of "ints") /\ is_name (text_of "int") /\ short (text_of "ints") (text_of "int") /\
  ~ (exists a, usable (k_tbl lib_s1) (text_of "ints") a) /\ usable (k_tbl lib_s1) (text_of "int") GInt /\
  Forall (fun r => none (a_foreign (r_name r)) (k_tbl lib_s1)) (array_api (text_of "ints") (text_of "int") true true) /\
  Forall (fun r => none (a_foreign (r_name r)) (k_tbl lib_s0)) (dict_api ++ dict_str_int_api) /\
  Forall (fun r => no_function_named (k_tbl lib_s0) (r_name r)) (dict_api ++ dict_str_int_api ++ array_api (text_of "ints") (text_of "int") true true).
Proof.
  split; [apply lib_reachable|]. split; [apply name_ok_is; vm_compute; reflexivity|]. split; [apply name_ok_is; vm_compute; reflexivity|]. split; [apply Nat.leb_le; vm_compute; reflexivity|].
  split; [intros (a & U); apply find_type_is in U; vm_compute in U; discriminate|]. split; [apply find_type_is; vm_compute; reflexivity|].
  split; [|split].
  - apply Forall_forall. intros r I. apply (none_find _ _ _ (foreign_is (r_name r))). revert r I. apply Forall_forall. repeat (apply Forall_cons; [vm_compute; reflexivity|]). apply Forall_nil.
  - apply Forall_forall. intros r I. apply (none_find _ _ _ (foreign_is (r_name r))). revert r I. apply Forall_forall. repeat (apply Forall_cons; [vm_compute; reflexivity|]). apply Forall_nil.
  - apply Forall_forall. intros r I. apply no_function_at. revert r I. apply Forall_forall. repeat (apply Forall_cons; [vm_compute; reflexivity|]). apply Forall_nil.
Qed.

Lemma ready_by_run n mods file src s ts s' : reachable s ->
  (forall m args as_ x b x', mods m args as_ x = COk b x' -> steps x x') ->
  compile_string n mods file src s = COk ts s' -> fits_c s' -> ready s'.
Proof. intros R Hm E F. exists n, mods, file, src, ts, s. auto. Qed.
Lemma lib_mods_steps m args as_ x b x' : lib_mods m args as_ x = COk b x' -> steps x x'.
Proof. unfold lib_mods. destruct (text_eqb m (text_of "array")); [apply array_macro_steps|discriminate]. Qed.
(** ... and the program runs: [k] is 4 + 3, and [m], declared a whole number, is a text *)
Definition lib_callees (c : nat) : list value -> fprog store := nth (c - 100) (lib_functions false Z.of_nat) (fun _ => FUB).
Example library_case : ready lib_s2 /\
  (let P := program_of lib_s2 lib_callees in
   match exec_top P 50 (k_hist lib_s2) (start_sst P []) with
   | Ok s => s_globs s = [VNative 0; VNative 1; VInt 7; VNative 2; VCStr (text_of "oops")] /\ length (s_host s) = 3
   | _ => False
   end) /\
  exists id, global_ref (k_tbl lib_s2) (text_of "m") = Some (RGlobal id) /\ var_type (k_tbl lib_s2) (RGlobal id) GInt /\
    (exists b, denotes (k_tbl lib_s2) id (text_of "m") (SyGlobal 4 b (Some GInt))).
Proof.
  split.
  - assert (F : fits_c lib_s2) by (vm_compute; repeat split). exact (ready_by_run 200 lib_mods None lib_src lib_s1 lib_ts lib_s2 (proj2 lib_reachable) lib_mods_steps lib_compiles F).
  - split; [vm_compute; split; reflexivity|].
    assert (D : exists id b, global_ref (k_tbl lib_s2) (text_of "m") = Some (RGlobal id) /\ denotes (k_tbl lib_s2) id (text_of "m") (SyGlobal 4 b (Some GInt))).
    { destruct (global_ref (k_tbl lib_s2) (text_of "m")) as [[id|id|f i|f i]|] eqn:G; vm_compute in G; try discriminate. injection G as <-. eexists _, true. split; [reflexivity|]. apply denotes_at. vm_compute. reflexivity. }
    destruct D as (id & b & G & D). exists id. split; [exact G|]. split; [eapply vt_global; exact D|eauto].
Qed.
