(** * Libraries bound item by item: lemmas for Props_Libraries.v *)
From Verif Require Import Base Token Lexer LexerSpec Values Heap Strings Code Syntax Symbols Parser Resolve VM Source Compile
  CompileProofs Layout TableInv ParserInv Host HostInv LayTable Whole Preserve TagTable TagParse TagWhole Typing TypingProofs
  Grammar BindSpec BindProofs Props_Compile Props_Names Props_Parser Props_Bind Scope ScopeProofs StdProofs StdBind SigText LibrarySpec LibraryProofs LibDict.
Local Open Scope nat_scope.

Inductive op_for (addr : nat -> nat) : item -> host_op -> Prop :=
| of_type x : op_for addr (ItType x) (HType x)
| of_const x z : op_for addr (ItConst x z) (HConst x (HInt z))
| of_macro x : op_for addr (ItMacro x) (HMacro x)
| of_fun r : op_for addr (ItFun r) (HFun (written (r_name r) (r_args r) (r_va r) (r_ret r)) (addr (r_place r)))
| of_bare x place : op_for addr (ItFun (Row x [] true (text_of "any") place)) (HFun x (addr place)).

Fixpoint run_ops (n : nat) (l : list host_op) : km unit :=
  match l with [] => cret tt | o :: l' => cbind (host n o) (fun _ => run_ops n l') end.

Definition item_ok (i : item) : Prop := match i with ItFun r => row_ok r | ItConst _ z => in_int32 z = true | _ => True end.
Definition known (t : tbl) (i : item) : Prop :=
  match i with ItFun r => (exists gs, Forall2 (names_type t) (r_args r) gs) /\ (exists g, names_type t (r_ret r) g) | _ => True end.

(** ** One function *)
Lemma bare_reads x : is_name x -> reads_as (" "%char :: x) [(IDENT, x)].
Proof. intros N. apply reads_blank; [discriminate|]. rewrite <- (app_nil_r x) at 1. apply reads_name; auto; [exact Logic.I|reflexivity]. Qed.
Lemma bare_signature T x : is_name x -> exists a y, begins x a y /\ signature T a (tk y) x [] true GAny T.
Proof.
  intros N. pose proof (bare_reads x N) as Rd.
  destruct (stream_reads [(IDENT, x)] (" "%char :: x) (length x + 3) (init_lexer x)) as (xs & e & E & Te & F2);
    [intros Q; discriminate Q|reflexivity|exact Rd|cbn [length]; lia|].
  apply Forall2_cons_l in F2 as (t & m1 & -> & [T1 T2] & F2). inversion F2; subst. exists [t], e. split.
  - exists 1, []. unfold lex_all. rewrite E. reflexivity.
  - rewrite Te. constructor; auto. discriminate.
Qed.
Lemma fun_binds addr r sig c T gs g : op_for addr (ItFun r) (HFun sig c) -> row_ok r -> Forall2 (names_type T) (r_args r) gs -> names_type T (r_ret r) g ->
  c = addr (r_place r) /\ exists n0, forall n, n0 <= n -> bind_host n sig c T = bind_function (r_name r) gs (r_va r) g c T.
Proof.
  intros O K F G. inversion O; subst.
  - split; [reflexivity|]. apply (row_binds T r gs g _ K F G).
  - split; [reflexivity|]. cbn [r_name r_args r_va r_ret r_place] in *. inversion F; subst. assert (g = GAny) as -> by (eapply names_one; [|exact G]; left; cbn; tauto).
    destruct K as (N & _). cbn in N. destruct (bare_signature T _ N) as (a & y & B & S). apply (host_complete _ _ _ _ _ _ _ _ _ _ B S).
Qed.

(** ** One item *)
Inductive sym_of (addr : nat -> nat) : item -> sym -> Prop :=
| so_type x y : is_type_named x y = true -> sym_of addr (ItType x) y
| so_const x z id : sym_of addr (ItConst x z) (mkSym id x (SyConst (KInt z)))
| so_macro x id : sym_of addr (ItMacro x) (mkSym id x SyModule)
| so_fun r id i gs g : sym_of addr (ItFun r) (mkSym id (r_name r) (SyForeign i gs (r_va r) g (addr (r_place r)))).

Lemma macro_host n x s s1 : host n (HMacro x) s = COk tt s1 <-> none (a_macro x) (k_tbl s) /\ s1 = set_tbl s (snd (new_sym (k_tbl s) x SyModule)).
Proof.
  assert (M : forall t, existsb (fun y => match sy_body y with SyModule => text_eqb (sy_name y) x | _ => false end) (tb_syms t) = false <-> none (a_macro x) t).
  { intros t. unfold none. induction (tb_syms t) as [|y l IH]; cbn; [split; auto|]. rewrite Bool.orb_false_iff, IH. split.
    - intros (Q & F). constructor; auto. intros (A & B). rewrite B, A, text_eqb_refl in Q. discriminate.
    - intros F. inversion F as [|? ? Ny F']; subst. split; auto. destruct (sy_body y) eqn:B; auto. destruct (text_eqb (sy_name y) x) eqn:Q; auto. apply text_eqb_eq in Q. exfalso. apply Ny. split; auto. }
  unfold host, kon_tbl, bind_macro. rewrite <- M. destruct (existsb _ _); [split; [discriminate|intros ([=] & _)]|]. split; [intros [= <-]; auto|intros (_ & ->); reflexivity].
Qed.

Lemma item_step addr i o n s s1 : reachable s -> op_for addr i o -> item_ok i -> known (k_tbl s) i -> host n o s = COk tt s1 ->
  free (k_tbl s) i /\
  (forall p : sym -> bool, (forall y, sym_of addr i y -> p y = false) -> find p (tb_syms (k_tbl s1)) = find p (tb_syms (k_tbl s))) /\
  (forall r, i = ItFun r -> exists t', adds addr (k_tbl s) [r] t' /\ s1 = set_tbl s t').
Proof.
  intros R O K Kn E. destruct O as [x|x z|x|r|x place].
  - split; [exact Logic.I|]. split; [|intros r [=]]. intros p Hp. destruct (host_type _ _ _ _ E) as (t & Et & ->).
    apply (register_keeps x _ _ _ Et (gd_unique _ _ (ld_good _ _ (reachable_loaded _ R)))). intros y Q. apply Hp. constructor. exact Q.
  - destruct (host_const _ _ _ _ _ E) as (t & Et & ->). destruct (const_spec _ _ _ _ (reachable_outside _ R) Et) as (N & k & Sy & Kk). subst k. split; [exact N|].
    split; [|intros r [=]]. intros p Hp. cbn [set_tbl k_tbl]. rewrite Sy, find_app. destruct (find p _); auto. cbn. rewrite Hp by constructor. reflexivity.
  - apply macro_host in E as (N & ->). split; [exact N|]. split; [|intros r [=]]. intros p Hp. cbn. rewrite find_app. destruct (find p _); auto. cbn. rewrite Hp by constructor. reflexivity.
  - set (sig := written (r_name r) (r_args r) (r_va r) (r_ret r)) in *. pose proof (of_fun addr r) as O.
    destruct Kn as ((gs & F) & g & G). destruct (fun_binds _ _ _ _ _ _ _ O K F G) as (_ & n0 & H).
    unfold host, kon_tbl in E. destruct (bind_host n sig (addr (r_place r)) (k_tbl s)) as [[] T'| | | | |] eqn:B; try discriminate. injection E as <-.
    pose proof (host_grow n (max n n0) _ _ _ _ B ltac:(lia)) as B'. fold sig in H. rewrite H in B' by lia. unfold bind_function in B'. destruct (find (is_foreign_named (r_name r)) (tb_syms (k_tbl s))) eqn:Q; [discriminate|]. cbn in B'. injection B' as <-.
    assert (N : none (a_foreign (r_name r)) (k_tbl s)) by (apply (none_find _ _ _ (foreign_is _)); auto). split; [exact N|]. split.
    + intros p Hp. cbn. rewrite find_app. destruct (find p _); auto. cbn. rewrite Hp by constructor. reflexivity.
    + intros r' [= <-]. eexists. split; [econstructor; eauto; constructor|reflexivity].
  - set (r := Row x [] true (text_of "any") place) in *. pose proof (of_bare addr x place) as O. fold r in O.
    destruct Kn as ((gs & F) & g & G). destruct (fun_binds _ _ _ _ _ _ _ O K F G) as (_ & n0 & H).
    unfold host, kon_tbl in E. destruct (bind_host n x (addr place) (k_tbl s)) as [[] T'| | | | |] eqn:B; try discriminate. injection E as <-.
    pose proof (host_grow n (max n n0) _ _ _ _ B ltac:(lia)) as B'. rewrite H in B' by lia. unfold bind_function in B'. destruct (find (is_foreign_named (r_name r)) (tb_syms (k_tbl s))) eqn:Q; [discriminate|]. cbn in B'. injection B' as <-.
    assert (N : none (a_foreign (r_name r)) (k_tbl s)) by (apply (none_find _ _ _ (foreign_is _)); auto). split; [exact N|]. split.
    + intros p Hp. cbn. rewrite find_app. destruct (find p _); auto. cbn. rewrite (Hp (mkSym _ x _)) by (apply (so_fun addr r)). reflexivity.
    + intros r' [= <-]. eexists. split; [apply (ad_row addr (k_tbl s) r gs g [] _ F G N); constructor|reflexivity].
Qed.

Lemma item_works addr i o s : reachable s -> op_for addr i o -> item_ok i -> known (k_tbl s) i -> free (k_tbl s) i ->
  exists n0 s1, forall n, n0 <= n -> host n o s = COk tt s1.
Proof.
  intros R O K Kn F. destruct O as [x|x z|x|r|x place].
  - destruct (registered_type s 0 x R) as (s1 & E & _). exists 0, s1. intros n _. exact E.
  - destruct (proj2 (constant_binding s 0 x (HInt z) R)) as (s1 & E); [split; [exact F|exact Logic.I]|]. exists 0, s1. intros n _. exact E.
  - exists 0. eexists. intros n _. apply macro_host. split; [exact F|reflexivity].
  - pose proof (of_fun addr r) as O. destruct Kn as ((gs & Fa) & g & G). destruct (fun_binds _ _ _ _ _ _ _ O K Fa G) as (_ & n0 & H).
    cbn [free] in F. apply (none_find _ _ _ (foreign_is _)) in F. exists n0. eexists. intros n L. unfold host, kon_tbl. rewrite (H n L). unfold bind_function. rewrite F. cbn. reflexivity.
  - pose proof (of_bare addr x place) as O. destruct Kn as ((gs & Fa) & g & G). destruct (fun_binds _ _ _ _ _ _ _ O K Fa G) as (_ & n0 & H).
    cbn [free] in F. apply (none_find _ _ _ (foreign_is _)) in F. exists n0. eexists. intros n L. unfold host, kon_tbl. rewrite (H n L). unfold bind_function. rewrite F. cbn. reflexivity.
Qed.

(** ** Items do not disturb each other *)
Definition key (i : item) : text :=
  match i with ItType x => "t"%char :: x | ItConst x _ => "c"%char :: x | ItMacro x => "m"%char :: x | ItFun r => "f"%char :: r_name r end.
Definition macro_named (x : text) (y : sym) : bool := match sy_body y with SyModule => text_eqb (sy_name y) x | _ => false end.
Lemma macro_is x y : macro_named x y = true <-> a_macro x y.
Proof.
  unfold macro_named, a_macro. destruct y as [i n b]; cbn [sy_name sy_body]. split.
  - destruct b; try discriminate. intros Q. apply text_eqb_eq in Q. auto.
  - intros (-> & ->). apply text_eqb_refl.
Qed.

Ltac apart_tac Ne := let H := fresh in intros ? H; destruct H as [? [? ? b] Q| | |]; cbn in *; try reflexivity;
  first [ (destruct b; cbn in *; try reflexivity; try discriminate; destruct (text_eqb _ _) eqn:Q2 in |- *; try reflexivity; exfalso; apply Ne; apply text_eqb_eq in Q, Q2; congruence)
        | (destruct (text_eqb _ _) eqn:Q in |- *; try reflexivity; exfalso; apply Ne; apply text_eqb_eq in Q; congruence) ].
Lemma sym_function addr i nm : key i <> "f"%char :: nm -> forall y, sym_of addr i y -> is_function nm y = false /\ is_foreign_named nm y = false.
Proof. intros Ne. split; revert y H; apart_tac Ne. Qed.
Lemma sym_value addr i nm : key i <> "c"%char :: nm -> forall y, sym_of addr i y -> is_value_sym nm y = false.
Proof. intros Ne. apart_tac Ne. Qed.
Lemma sym_macro addr i nm : key i <> "m"%char :: nm -> forall y, sym_of addr i y -> macro_named nm y = false.
Proof. intros Ne. apart_tac Ne. Qed.
Lemma sym_type addr i nm : key i <> "t"%char :: nm -> forall y, sym_of addr i y -> is_type_named nm y = false.
Proof. intros Ne. apart_tac Ne. Qed.

(** ** Scripts *)
Definition prims : list text := map fst builtin_types.
Definition inb (x : text) (l : list text) : bool := existsb (text_eqb x) l.
Lemma inb_in x l : inb x l = true -> In x l.
Proof. intros H. apply existsb_exists in H as (y & I & Q). apply text_eqb_eq in Q. subst. exact I. Qed.
Fixpoint closed_items (D : list text) (l : list item) : bool :=
  match l with
  | [] => true
  | ItType x :: l' => closed_items (x :: D) l'
  | ItFun r :: l' => forallb (fun x => inb x D || inb x prims) (r_ret r :: r_args r) && row_okb r && closed_items D l'
  | ItConst _ z :: l' => in_int32 z && closed_items D l'
  | ItMacro _ :: l' => closed_items D l'
  end.
Definition well_formed (l : list item) : bool := closed_items [] l && distinct (map key l).

Definition declared (t : tbl) (D : list text) : Prop := Forall (fun x => exists g, names_type t x g) D.
Lemma known_here t D r : declared t D -> forallb (fun x => inb x D || inb x prims) (r_ret r :: r_args r) = true -> known t (ItFun r).
Proof.
  intros De F. assert (H : forall x, In x (r_ret r :: r_args r) -> exists g, names_type t x g).
  { intros x I. rewrite forallb_forall in F. apply F, Bool.orb_true_iff in I as [I|I]; apply inb_in in I.
    - unfold declared in De. rewrite Forall_forall in De. auto.
    - apply in_map_iff in I as ((y & g) & <- & I). exists g. left. exact I. }
  clear F. split; [|apply H; left; reflexivity]. assert (K : Forall (fun x => exists g, names_type t x g) (r_args r)) by (apply Forall_forall; intros x Ix; apply H; right; exact Ix).
  clear -K. induction K as [|x l (g & G) _ (gs & IH)]; [exists []; constructor|exists (g :: gs); constructor; auto].
Qed.
Lemma declared_steps s s' D : reachable s -> steps s s' -> declared (k_tbl s) D -> declared (k_tbl s') D.
Proof. intros R S De. eapply Forall_impl; [|exact De]. intros x (g & N). exists g. eapply steps_name; eauto. Qed.
Lemma closed_head addr i l D s n o s1 : closed_items D (i :: l) = true -> reachable s -> declared (k_tbl s) D -> op_for addr i o -> host n o s = COk tt s1 ->
  exists D', closed_items D' l = true /\ declared (k_tbl s1) D'.
Proof.
  intros C R De O E. pose proof (host_steps _ _ _ _ E) as S. pose proof (declared_steps _ _ _ R S De) as De1. destruct i as [x|x z|x|r]; cbn in C.
  - exists (x :: D). split; auto. constructor; auto. inversion O; subst. eapply registered_names; eauto.
  - apply Bool.andb_true_iff in C as (_ & C). eauto.
  - eauto.
  - apply Bool.andb_true_iff in C as (_ & C). eauto.
Qed.
Lemma closed_this D i l s : closed_items D (i :: l) = true -> declared (k_tbl s) D -> item_ok i /\ known (k_tbl s) i.
Proof.
  intros C De. destruct i as [x|x z|x|r]; try (split; exact Logic.I); [split; [cbn in C; apply Bool.andb_true_iff in C as (C & _); exact C|exact Logic.I]|]. cbn [closed_items] in C. rewrite !Bool.andb_true_iff in C. destruct C as ((F & K) & _). split.
  - pose proof (rows_ok [r]) as H. cbn in H. rewrite K in H. specialize (H eq_refl). inversion H. auto.
  - eapply known_here; eauto.
Qed.

Lemma free_keeps addr i j s s1 n o : reachable s -> op_for addr i o -> item_ok i -> known (k_tbl s) i -> host n o s = COk tt s1 -> key i <> key j ->
  (free (k_tbl s1) j <-> free (k_tbl s) j).
Proof.
  intros R O K Kn E Ne. destruct (item_step addr i o n s s1 R O K Kn E) as (_ & Kp & _). destruct j as [x|x z|x|r]; cbn [free key] in *.
  - tauto.
  - rewrite !(none_find _ _ _ (value_is x)), Kp; [reflexivity|]. apply sym_value. exact Ne.
  - rewrite !(none_find _ _ _ (macro_is x)), Kp; [reflexivity|]. apply sym_macro. exact Ne.
  - rewrite !(none_find _ _ _ (foreign_is (r_name r))), Kp; [reflexivity|]. intros y Y. apply (sym_function addr i (r_name r) Ne y Y).
Qed.

Lemma run_ops_steps n : forall l s s', run_ops n l s = COk tt s' -> steps s s'.
Proof.
  induction l as [|o l IH]; intros s s' E; [injection E as <-; apply st_refl|]. cbn [run_ops] in E. apply cbind_ok in E as ([] & s1 & E1 & E). eapply st_host; [exact E1|]. auto.
Qed.

Lemma script_free addr n : forall l ops D s s', Forall2 (op_for addr) l ops -> closed_items D l = true -> NoDup (map key l) -> reachable s -> declared (k_tbl s) D ->
  run_ops n ops s = COk tt s' -> Forall (free (k_tbl s)) l.
Proof.
  intros l ops D s s' F. revert D s. induction F as [|i o l ops O F IH]; intros D s C N R De E; [constructor|].
  cbn [run_ops] in E. apply cbind_ok in E as ([] & s1 & E1 & E). destruct (closed_this _ _ _ _ C De) as (K & Kn). destruct (closed_head _ _ _ _ _ _ _ _ C R De O E1) as (D' & C' & De').
  cbn [map] in N. inversion N as [|? ? Nk N']; subst. constructor; [apply (item_step _ _ _ _ _ _ R O K Kn E1)|].
  pose proof (IH D' s1 C' N' (host_reach _ _ _ _ R E1) De' E) as F1. rewrite Forall_forall in F1 |- *. intros j I. apply (free_keeps addr i j s s1 n o R O K Kn E1); [|auto].
  intros Q. apply Nk. rewrite Q. apply in_map. exact I.
Qed.
Lemma script_works addr : forall l ops D s, Forall2 (op_for addr) l ops -> closed_items D l = true -> NoDup (map key l) -> reachable s -> declared (k_tbl s) D ->
  Forall (free (k_tbl s)) l -> exists n0 s', forall n, n0 <= n -> run_ops n ops s = COk tt s'.
Proof.
  intros l ops D s F. revert D s. induction F as [|i o l ops O F IH]; intros D s C N R De Fr; [exists 0, s; reflexivity|].
  destruct (closed_this _ _ _ _ C De) as (K & Kn). inversion Fr as [|? ? Fi Fr']; subst. destruct (item_works addr i o s R O K Kn Fi) as (n0 & s1 & W).
  pose proof (W n0 (le_n _)) as E1. destruct (closed_head _ _ _ _ _ _ _ _ C R De O E1) as (D' & C' & De'). cbn [map] in N. inversion N as [|? ? Nk N']; subst.
  destruct (IH D' s1 C' N' (host_reach _ _ _ _ R E1) De') as (n1 & s' & W1).
  { rewrite Forall_forall in Fr' |- *. intros j I. apply (free_keeps addr i j s s1 n0 o R O K Kn E1); [|auto]. intros Q. apply Nk. rewrite Q. apply in_map. exact I. }
  exists (max n0 n1), s'. intros n L. cbn [run_ops]. eapply ok_cbind; [apply W; lia|]. apply W1. lia.
Qed.

(** ** What is there, later *)
Definition seen (addr : nat -> nat) (s z : kst) (i : item) : Prop :=
  match i with
  | ItType x => ~ builtin x -> undefined (k_tbl s) x -> own_type z x
  | ItConst x v => exists id, lookup (env_of (k_tbl z)) x = Some (RConst id) /\ var_type (k_tbl z) (RConst id) GInt /\
      forall H (callees : nat -> list Values.value -> fprog H) fe st, read_var (program_of z callees) fe (RConst id) st = Ok (VInt v)
  | ItMacro x => exists y, In y (tb_syms (k_tbl z)) /\ a_macro x y
  | ItFun r =>
      match reference_function (k_tbl s) (r_name r) with
      | None => found_row addr z r
      | Some f => exists f', reference_function (k_tbl z) (r_name r) = Some f' /\ sy_id f' = sy_id f
      end
  end.
Lemma item_seen addr i o n s s1 z : reachable s -> op_for addr i o -> item_ok i -> known (k_tbl s) i -> host n o s = COk tt s1 -> steps s1 z -> seen addr s z i.
Proof.
  intros R O K Kn E S. assert (Hr : forall r, i = ItFun r -> seen addr s z (ItFun r)).
  { intros r ->. destruct (item_step _ _ _ _ _ _ R O K Kn E) as (_ & _ & H). destruct (H r eq_refl) as (t' & Ad & ->).
    apply (rows_later addr s [r] t' z r R Ad); [constructor; [exact K|constructor]|cbn; constructor; [intros []|constructor]|constructor; [exact Kn|constructor]|exact S|left; reflexivity]. }
  destruct O as [x|x v|x|r|x place]; cbn [seen]; try (apply (Hr _ eq_refl)).
  - intros B U. eapply registered_own; eauto.
  - destruct (bound_constant s n x (HInt v) s1 z R E S) as (id & L & V & Rd). exists id. split; [exact L|]. split; [exact V|]. intros H c fe st. rewrite (Rd H c fe st Logic.I). cbn [hconst_value]. rewrite wrap32_in; [reflexivity|exact K].
  - destruct (macro_binding s n x R) as (_ & H). eauto.
Qed.
Lemma seen_keeps addr i j s s1 n o z : reachable s -> op_for addr i o -> item_ok i -> known (k_tbl s) i -> host n o s = COk tt s1 -> key i <> key j ->
  seen addr s1 z j -> seen addr s z j.
Proof.
  intros R O K Kn E Ne Se. destruct (item_step addr i o n s s1 R O K Kn E) as (_ & Kp & _). destruct j as [x|x v|x|r]; cbn [seen key] in *; auto.
  - intros B U. apply Se; auto. intros y fs F. apply (U y fs). apply (find_first _ _ _ _ (type_is x)). apply (find_first _ _ _ _ (type_is x)) in F. rewrite <- F. symmetry. apply Kp. apply sym_type. exact Ne.
  - unfold reference_function in *. rewrite Kp in Se; [exact Se|]. intros y Y. apply (sym_function addr i (r_name r) Ne y Y).
Qed.
Lemma script_seen addr n z : forall l ops D s s', Forall2 (op_for addr) l ops -> closed_items D l = true -> NoDup (map key l) -> reachable s -> declared (k_tbl s) D ->
  run_ops n ops s = COk tt s' -> steps s' z -> Forall (seen addr s z) l.
Proof.
  intros l ops D s s' F. revert D s. induction F as [|i o l ops O F IH]; intros D s C N R De E S; [constructor|].
  cbn [run_ops] in E. apply cbind_ok in E as ([] & s1 & E1 & E). destruct (closed_this _ _ _ _ C De) as (K & Kn). destruct (closed_head _ _ _ _ _ _ _ _ C R De O E1) as (D' & C' & De').
  cbn [map] in N. inversion N as [|? ? Nk N']; subst. constructor.
  - eapply item_seen; eauto. eapply steps_app; [eapply run_ops_steps; exact E|exact S].
  - pose proof (IH D' s1 C' N' (host_reach _ _ _ _ R E1) De' E S) as F1. rewrite Forall_forall in F1 |- *. intros j I. apply (seen_keeps addr i j s s1 n o z R O K Kn E1); [|auto].
    intros Q. apply Nk. rewrite Q. apply in_map. exact I.
Qed.

(** ** The library's own calls *)
Lemma run_ops_app n l1 l2 s : run_ops n (l1 ++ l2) s = cbind (run_ops n l1) (fun _ => run_ops n l2) s.
Proof.
  revert s. induction l1 as [|o l1 IH]; intros s; [reflexivity|]. cbn [run_ops app]. unfold cbind at 1 2 3. destruct (host n o s) as [[] s1| | | | |]; try reflexivity. rewrite IH. unfold cbind. reflexivity.
Qed.
Definition fun_ops (addr : nat -> nat) (l : list (text * nat)) : list host_op := map (fun p => HFun (fst p) (addr (snd p))) l.
Lemma bind_all_ops addr n l s : bind_all addr n l s = run_ops n (fun_ops addr l) s.
Proof. revert s. induction l as [|[sg f] l IH]; intros s; [reflexivity|]. cbn [bind_all fun_ops map run_ops fst snd]. unfold cbind. destruct (host n _ s) as [[] s1| | | | |]; try reflexivity. apply IH. Qed.
