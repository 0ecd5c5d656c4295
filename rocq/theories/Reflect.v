(** * What the host finds by name: /repo/tiny/src/tiny.c:4395-4427

    [Tiny_FindTypeSymbol] is [find_type_symbol] of StdBind.v, and
    [Tiny_FindFuncSymbol] is [reference_function] of Symbols.v (tiny.c:4406-4408).
    This file has the other two and what keeps the symbols they find. *)
From Verif Require Import Base Token Lexer Values Strings Code FileLine Syntax Symbols Parser Resolve Compile Layout CompileProofs TableInv ParserInv Host StdBind.
From Verif Require Import Grammar GrammarStmt FailTable ScopeProofs Props_Bind.
Local Open Scope nat_scope.

Definition is_const_named (name : text) (y : sym) : bool :=
  match sy_body y with SyConst _ => text_eqb (sy_name y) name | _ => false end.
(** tiny.c:4410-4420 [Tiny_FindConstSymbol] *)
Definition find_const_symbol (t : tbl) (name : text) : option sym := find (is_const_named name) (tb_syms t).
(** tiny.c:4422-4427 [Tiny_GetStringFromConstIndex]: the index is asserted *)
Definition get_string (t : tbl) (i : nat) : outcome text :=
  match nth_error (tb_strings t) i with Some x => Ok x | None => Abort end.

(** ** What a symbol stays *)
Definition like_body (b b' : symbody) : Prop :=
  match b, b' with
  | SyConst c, SyConst c' => c = c'
  | SyStruct d _, SyStruct d' _ => d = true -> d' = true
  | SyStruct d _, SyForeignTag => d = false
  | SyForeign _ _ _ _ _, SyForeign _ _ _ _ _ => b = b'
  | SyFunc i _ _ _, SyFunc i' _ _ _ => i = i'
  | SyGlobal _ _ _, SyGlobal _ _ _ | SyForeignTag, SyForeignTag | SyModule, SyModule => True
  | SyNullable g, SyNullable g' => g = g'
  | _, _ => False
  end.
Definition like (x y : sym) : Prop := sy_id y = sy_id x /\ sy_name y = sy_name x /\ like_body (sy_body x) (sy_body y).
Lemma like_body_refl b : like_body b b. Proof. destruct b; cbn; auto. Qed.
Lemma like_refl y : like y y. Proof. split; [|split]; auto. apply like_body_refl. Qed.
Lemma like_trans x y z : like x y -> like y z -> like x z.
Proof.
  intros (A & B & C) (A' & B' & C'). split; [congruence|]. split; [congruence|].
  destruct (sy_body x), (sy_body y); cbn in *; try contradiction; destruct (sy_body z); cbn in *; try contradiction; auto; try congruence.
  destruct defined; auto. rewrite C in C'; auto.
Qed.

Definition stay (t t' : tbl) : Prop :=
  (exists l1 l2, tb_syms t' = l1 ++ l2 /\ Forall2 like (tb_syms t) l1) /\ exists w, tb_strings t' = tb_strings t ++ w.
Lemma stay_syms t t' : tb_syms t' = tb_syms t -> tb_strings t' = tb_strings t -> stay t t'.
Proof.
  intros E E'. split; [|exists []; rewrite app_nil_r; exact E']. exists (tb_syms t), []. rewrite app_nil_r. split; [exact E|].
  clear. induction (tb_syms t); constructor; auto. apply like_refl.
Qed.
Lemma stay_refl t : stay t t. Proof. apply stay_syms; reflexivity. Qed.
Lemma forall2_trans {A} (R : A -> A -> Prop) : (forall x y z, R x y -> R y z -> R x z) -> forall l l' k, Forall2 R l l' -> Forall2 R l' k -> Forall2 R l k.
Proof. intros T l l' k F. revert k. induction F; intros k G; inversion G; subst; constructor; eauto. Qed.
Lemma stay_trans a b c : stay a b -> stay b c -> stay a c.
Proof.
  intros ((l1 & l2 & E & F) & (w & W)) ((k1 & k2 & E' & F') & (w' & W')). split; [|exists (w ++ w'); rewrite W', W, app_assoc; reflexivity].
  rewrite E in F'. apply Forall2_app_inv_l in F' as (m1 & m2 & F1 & F2 & ->). exists m1, (m2 ++ k2). rewrite E', <- app_assoc. split; [reflexivity|].
  eapply forall2_trans; [exact like_trans|exact F|exact F1].
Qed.
Lemma stay_new t name b : stay t (snd (new_sym t name b)).
Proof.
  destruct (stay_refl t) as ((l1 & l2 & E & F) & W). split; [|exact W]. exists (tb_syms t), [mkSym (tb_next t) name b]. split; [reflexivity|].
  clear. induction (tb_syms t); constructor; auto. apply like_refl.
Qed.
(** Replacing the body of a symbol *)
Lemma stay_put t id y b : unique t -> sym_at t id = Some y -> like_body (sy_body y) b -> stay t (put_body t id b).
Proof.
  intros U Y L. split; [|exists []; rewrite app_nil_r; reflexivity].
  exists (tb_syms (put_body t id b)), []. rewrite app_nil_r. split; [reflexivity|]. cbn [put_body set_syms tb_syms].
  assert (X : forall z, In z (tb_syms t) -> sy_id z = id -> z = y) by (intros; eapply sym_at_unique; eauto).
  induction (tb_syms t) as [|z l IH]; cbn; constructor.
  - destruct (Nat.eqb_spec (sy_id z) id) as [E|N]; [|apply like_refl]. pose proof (X z (or_introl eq_refl) E) as Z. subst z. split; [exact (eq_sym E)|]. split; [reflexivity|exact L].
  - apply IH. intros; apply X; auto. right. auto.
Qed.

(** ** What is found is found later *)
Lemma find_like p q l : (forall x y, like x y -> q y = p x) -> forall l1 l2, Forall2 like l l1 -> forall x, find p l = Some x -> exists y, find q (l1 ++ l2) = Some y /\ like x y.
Proof.
  intros PQ l1 l2 F. induction F as [|x y l l1 K F IH]; intros z; cbn [find app]; [discriminate|]. rewrite (PQ _ _ K).
  destruct (p x); [intros [= <-]; eauto|apply IH].
Qed.
Lemma const_like name x y : like x y -> is_const_named name y = is_const_named name x.
Proof.
  destruct x as [i n b], y as [i' n' b']. intros (A & B & C). cbn in *. subst. unfold is_const_named. cbn [sy_body sy_name].
  destruct b, b'; cbn in C; try contradiction; reflexivity.
Qed.
Lemma type_like name x y : like x y -> is_type_named name y = is_type_named name x.
Proof.
  destruct x as [i n b], y as [i' n' b']. intros (A & B & C). cbn in *. subst. unfold is_type_named. cbn [sy_body sy_name].
  destruct b, b'; cbn in C; try contradiction; reflexivity.
Qed.
Lemma function_like name x y : like x y -> is_function name y = is_function name x.
Proof.
  destruct x as [i n b], y as [i' n' b']. intros (A & B & C). cbn in *. subst. unfold is_function. cbn [sy_body sy_name].
  destruct b, b'; cbn in C; try contradiction; reflexivity.
Qed.
Lemma const_stays t t' name y : stay t t' -> find_const_symbol t name = Some y -> find_const_symbol t' name = Some y.
Proof.
  intros ((l1 & l2 & E & F) & _) Fd. unfold find_const_symbol in *. pose proof (find_some _ _ Fd) as (_ & N).
  destruct (find_like _ (is_const_named name) _ (const_like name) l1 l2 F _ Fd) as (z & Fz & L). rewrite E, Fz. f_equal.
  destruct y as [i n b], z as [i' n' b']. destruct L as (A & B & C). cbn in *. subst. unfold is_const_named in N. cbn [sy_body] in N.
  destruct b; try discriminate. destruct b'; cbn in C; try contradiction. subst. reflexivity.
Qed.
Lemma type_stays t t' name g : stay t t' -> find_type_symbol t name = Some g -> find_type_symbol t' name = Some g.
Proof.
  intros ((l1 & l2 & E & F) & _). unfold find_type_symbol. destruct (prim_tag name); [auto|].
  destruct (find (is_type_named name) (tb_syms t)) as [y|] eqn:Fd; [|discriminate]. intros Q. pose proof (find_some _ _ Fd) as (_ & N).
  destruct (find_like _ (is_type_named name) _ (type_like name) l1 l2 F _ Fd) as (z & Fz & L). rewrite E, Fz.
  destruct y as [i n b], z as [i' n' b']. destruct L as (A & B & C). cbn in *. subst. unfold is_type_named in N. cbn [sy_body] in N.
  destruct b; try discriminate.
  - destruct defined; [|discriminate]. destruct b'; cbn in C; try contradiction; [|discriminate]. rewrite C; auto.
  - destruct b'; cbn in C; try contradiction. exact Q.
Qed.
(** What a name means to a script outside functions stays *)
Lemma value_like name x y : like x y -> is_value_sym name y = is_value_sym name x.
Proof.
  destruct x as [i n b], y as [i' n' b']. intros (A & B & C). cbn in *. subst. unfold is_value_sym. cbn [sy_body sy_name].
  destruct b, b'; cbn in C; try contradiction; reflexivity.
Qed.
Lemma meaning_stays t t' name r : stay t t' -> global_ref t name = Some r -> global_ref t' name = Some r.
Proof.
  intros ((l1 & l2 & E & F) & _) G. unfold global_ref in *. destruct (find (is_value_sym name) (tb_syms t)) as [y|] eqn:Fd; [|discriminate].
  destruct (find_like _ (is_value_sym name) _ (value_like name) l1 l2 F _ Fd) as (z & Fz & L). rewrite E, Fz. cbn [option_map] in *. rewrite <- G. f_equal.
  destruct y as [i n b], z as [i' n' b']. destruct L as (A & B & C). cbn in *. subst. unfold value_ref. cbn [sy_body sy_id].
  destruct b, b'; cbn in C; try contradiction; reflexivity.
Qed.
Lemma string_stays t t' i x : stay t t' -> get_string t i = Ok x -> get_string t' i = Ok x.
Proof.
  intros (_ & (w & W)). unfold get_string. rewrite W. destruct (nth_error (tb_strings t) i) as [y|] eqn:N; [|discriminate].
  rewrite nth_error_app1; [rewrite N; auto|apply nth_error_Some; congruence].
Qed.

(** Where it comes from: a compile, failing or not, and the type checker *)
Lemma base_stay t0 t : base t0 t -> stay t0 t.
Proof.
  intros [(l1 & l2 & E & K & _) _ W _ _ _ _]. split; [|exact W]. exists l1, l2. split; [exact E|]. clear - K.
  induction K as [|x y l l' (A & B & C) K IH]; constructor; auto. split; [exact A|]. split; [exact B|].
  destruct C as [<-|C]; [apply like_body_refl|]. destruct (sy_body x) as [| | | |[]| | |], (sy_body y); cbn in *; try contradiction; auto. discriminate.
Qed.
Lemma shape_stay t t' : same_shape t t' -> (exists w, tb_strings t' = tb_strings t ++ w) -> stay t t'.
Proof.
  intros (E & _) W. split; [|exact W]. exists (tb_syms t'), []. rewrite app_nil_r. split; [reflexivity|]. clear - E. revert E. generalize (tb_syms t'). induction (tb_syms t) as [|x l IH]; intros [|y k] E; try discriminate; constructor.
  - pose proof (f_equal (hd (erase x)) E) as E1. cbn [map hd] in E1. destruct x as [i n b], y as [i' n' b']. unfold erase in E1. cbn in E1. injection E1 as -> -> E1. split; [|split]; auto. cbn.
    destruct b, b'; cbn in *; try discriminate; auto; try (injection E1; intros; subst); auto.
  - apply IH. exact (f_equal (@tl sym) E).
Qed.

(** ** The parser *)
Definition sound (t : tbl) : Prop := young t /\ unique t.
Definition grows (t t' : tbl) : Prop := sound t -> sound t' /\ stay t t'.
Lemma grows_refl t : grows t t. Proof. intros S. split; [exact S|apply stay_refl]. Qed.
Lemma grows_trans a b c : grows a b -> grows b c -> grows a c.
Proof. intros A B S. destruct (A S) as (S1 & T1). destruct (B S1) as (S2 & T2). split; [exact S2|]. eapply stay_trans; eauto. Qed.
Lemma grows_syms t t' : tb_syms t' = tb_syms t -> tb_next t' = tb_next t -> tb_strings t' = tb_strings t -> grows t t'.
Proof. intros A B C (Y & U). split; [split; unfold young, unique; rewrite A, ?B; assumption|apply stay_syms; auto]. Qed.
Lemma grows_new t name b : grows t (snd (new_sym t name b)).
Proof.
  intros (Y & U). split; [split; [eapply young_app; [reflexivity|reflexivity|exact Y]|eapply unique_app; [reflexivity|exact Y|exact U]]|apply stay_new].
Qed.
Lemma grows_put t id y b : sym_at t id = Some y -> like_body (sy_body y) b -> grows t (put_body t id b).
Proof. intros Y L (Yo & U). split; [split; [apply put_young; exact Yo|apply put_unique; exact U]|eapply stay_put; eauto]. Qed.
Lemma grows_same a b c : tb_syms c = tb_syms b -> tb_next c = tb_next b -> tb_strings c = tb_strings b -> grows a b -> grows a c.
Proof. intros A B C G. eapply grows_trans; [exact G|apply grows_syms; auto]. Qed.

Lemma grows_intern x t i t' : intern x t = COk i t' -> grows t t'.
Proof.
  unfold intern. destruct (register_string (tb_strings t) x) as [[tab k]| | |] eqn:R; try discriminate. intros [= _ <-] (Y & U).
  split; [split; assumption|]. destruct (stay_refl t) as (S & _). split; [exact S|]. apply register_grows in R. exact R.
Qed.
Lemma grows_struct name s t id t' : declare_struct name s t = COk id t' -> grows t t'.
Proof. unfold declare_struct. destruct (if s then _ else _); [intros [= _ <-]; apply grows_refl|]. intros [= _ <-]. apply grows_new. Qed.
Lemma grows_tag name t g t' : tag_from_name name t = COk g t' -> grows t t'.
Proof.
  unfold tag_from_name. destruct (prim_tag name); [intros [= _ <-]; apply grows_refl|]. destruct (find _ _); [intros [= _ <-]; apply grows_refl|].
  intros [= _ <-]. apply (grows_new t name).
Qed.
Lemma grows_nullable g t g' t' : get_nullable g t = COk g' t' -> grows t t'.
Proof.
  unfold get_nullable. destruct (find _ _); [intros [= _ <-]; apply grows_refl|]. destruct (tag_name t g) as [n|]; [|discriminate]. intros [= _ <-]. apply (grows_new t).
Qed.
Lemma grows_type t a g t' : spells_type t a g t' -> grows t t'.
Proof. intros H. inversion H; subst; [eapply grows_tag; eauto|]. eapply grows_trans; [eapply grows_tag; eauto|eapply grows_nullable; eauto]. Qed.
Lemma reference_same x t r t' : reference_variable x t = COk r t' -> t' = t.
Proof.
  unfold reference_variable. destruct (tb_func t) as [f|]; [|intros [= _ <-]; reflexivity]. destruct (sym_at t f) as [[i n []]|]; try discriminate.
  destruct (find_index _ locals 0); [intros [= _ <-]; reflexivity|]. destruct (find_index _ args 0); intros [= _ <-]; reflexivity.
Qed.
Lemma grows_exprs :
  (forall p T a e T', spells p T a e T' -> grows T T') /\ (forall T a es T', spells_args T a es T' -> grows T T') /\
  (forall T a ns es T', spells_inits T a ns es T' -> grows T T').
Proof.
  apply spells_ind3; intros; eauto using grows_refl, grows_trans, grows_intern, grows_struct, grows_type.
  match goal with H : reference_variable _ _ = _ |- _ => apply reference_same in H; subst; apply grows_refl end.
Qed.
Lemma grows_expr p T a e T' : spells p T a e T' -> grows T T'. Proof. apply grows_exprs. Qed.
Lemma grows_close t u t' : close_scope t = COk u t' -> grows t t'.
Proof.
  unfold close_scope. destruct (tb_func t) as [f|]; [|intros [= _ <-]; apply grows_syms; reflexivity].
  destruct (sym_at t f) as [[i n []]|] eqn:Y; try discriminate. intros [= _ <-]. eapply grows_same; [reflexivity| | |eapply (grows_put t f); [exact Y|reflexivity]]; reflexivity.
Qed.
Lemma grows_function name t id t' : declare_function name t = COk id t' -> grows t t'.
Proof. unfold declare_function. intros [= _ <-]. eapply grows_same; [| | |apply (grows_new t name (SyFunc (tb_nfun t) [] [] None))]; reflexivity. Qed.
Lemma grows_params T a ps T' : spells_params T a ps T' -> grows T T'.
Proof. induction 1; eauto using grows_refl, grows_trans, grows_type. Qed.
Lemma grows_argument n x g t u t' : declare_argument n x g t = COk u t' -> grows t t'.
Proof.
  unfold declare_argument. destruct (tb_func t) as [f|]; [|discriminate]. destruct (sym_at t f) as [[i nm []]|] eqn:Y; try discriminate.
  destruct (find_index _ _ _); [discriminate|]. intros [= _ <-]. eapply grows_put; [exact Y|reflexivity].
Qed.
Lemma grows_declares n T ps T' : declares_params n T ps T' -> grows T T'.
Proof. induction 1; [apply grows_refl|]. eapply grows_trans; [eapply grows_argument; eauto|auto]. Qed.
Lemma grows_result T a g T' : spells_result T a g T' -> grows T T'.
Proof. intros H. inversion H; subst; [apply grows_refl|eapply grows_type; eauto]. Qed.
Lemma grows_ret id g t u t' : set_ret id g t = COk u t' -> grows t t'.
Proof.
  unfold set_ret. destruct (sym_at t id) as [[i nm []]|] eqn:Y; try discriminate. intros [= _ <-]. eapply grows_put; [exact Y|reflexivity].
Qed.
Lemma grows_var T x v T' : declares T x v T' -> grows T T'.
Proof.
  unfold declares. destruct (tb_func T) as [f|] eqn:F.
  - unfold declare_local. rewrite F. destruct (sym_at T f) as [[i nm []]|] eqn:Y; try discriminate. destruct (find_index _ _ _); [discriminate|].
    intros [= _ <-]. eapply grows_put; [exact Y|reflexivity].
  - unfold declare_global. intros E. apply cbind_ok in E as (r & s & E & E'). apply reference_same in E. subst s.
    assert (X : (let '(id, t1) := new_sym T x (SyGlobal (tb_nglob T) false None) in COk (RGlobal id) (set_nglob t1 (S (tb_nglob T)))) = COk v T') by (destruct r as [[]|]; try discriminate; exact E').
    cbn in X. injection X as _ <-. eapply grows_same; [| | |apply (grows_new T x (SyGlobal (tb_nglob T) false None))]; reflexivity.
Qed.
Lemma grows_var_tag v g t u t' : set_var_tag v g t = COk u t' -> grows t t'.
Proof.
  unfold set_var_tag. destruct v as [id|id|f i|f i]; try discriminate.
  - destruct (sym_at t id) as [[i nm []]|] eqn:Y; try discriminate. intros [= _ <-]. eapply grows_put; [exact Y|exact I].
  - unfold put_var. destruct (sym_at t f) as [[k nm []]|] eqn:Y; try discriminate. destruct (nth_error _ _); try discriminate. intros [= _ <-]. eapply grows_put; [exact Y|reflexivity].
  - unfold put_var. destruct (sym_at t f) as [[k nm []]|] eqn:Y; try discriminate. destruct (nth_error _ _); try discriminate. intros [= _ <-]. eapply grows_put; [exact Y|reflexivity].
Qed.
(** A constant that is declared is the one found *)
Lemma global_ref_const t x y : find_const_symbol t x = Some y -> global_ref t x <> None.
Proof.
  unfold find_const_symbol, global_ref. induction (tb_syms t) as [|z l IH]; [discriminate|]. cbn [find]. unfold is_const_named at 1, is_value_sym at 1.
  destruct (sy_body z); try exact IH; destruct (text_eqb (sy_name z) x); try discriminate; auto.
Qed.
Lemma find_last {A} (p : A -> bool) l x : find p l = None -> p x = true -> find p (l ++ [x]) = Some x.
Proof. induction l as [|y l IH]; cbn; [intros _ ->; reflexivity|]. destruct (p y); [discriminate|auto]. Qed.
Lemma declared_const x c t t' : declare_const x c t = COk tt t' ->
  grows t t' /\ exists id, find_const_symbol t' x = Some (mkSym id x (SyConst c)) /\ global_ref t' x = Some (RConst id).
Proof.
  unfold declare_const. intros E. apply cbind_ok in E as (r & s & E & E'). pose proof (reference_same _ _ _ _ E). subst s.
  destruct r; [discriminate|]. injection E' as <-. split; [apply grows_new|]. exists (tb_next t).
  assert (N : global_ref t x = None).
  { revert E. unfold reference_variable. destruct (tb_func t) as [f|]; [|congruence]. destruct (sym_at t f) as [[i n []]|]; try discriminate.
    destruct (find_index _ locals 0); [discriminate|]. destruct (find_index _ args 0); [discriminate|congruence]. }
  split.
  - unfold find_const_symbol. cbn [new_sym snd tb_syms]. apply find_last; [|unfold is_const_named; cbn; apply text_eqb_refl].
    destruct (find (is_const_named x) (tb_syms t)) as [y|] eqn:Fd; [|reflexivity]. exfalso. exact (global_ref_const t x y Fd N).
  - unfold global_ref in *. cbn [new_sym snd tb_syms]. rewrite (find_last _ _ (mkSym (tb_next t) x (SyConst c))); [reflexivity| |unfold is_value_sym; cbn; apply text_eqb_refl].
    destruct (find (is_value_sym x) (tb_syms t)); [discriminate|reflexivity].
Qed.
Lemma grows_fields id T a T' : spells_fields id T a T' -> grows T T'.
Proof.
  induction 1 as [T|T t x c a g T1 nm d fs b T' nm' d' fs' _ _ _ Y _ Fi St Y1 _ IH]; [apply grows_refl|].
  eapply grows_trans; [eapply grows_type; eauto|]. eapply grows_trans; [|exact IH]. eapply grows_put; [exact Y1|]. cbn. auto.
Qed.
Lemma grows_structure T a T' : spells_struct T a T' -> grows T T'.
Proof.
  intros [T0 s t x id T1 nm fs op b c T2 nm' d' f fs' _ _ _ _ E Y _ Sf _ _]. eapply grows_trans; [eapply grows_struct; eauto|].
  eapply grows_trans; [|eapply grows_fields; eauto]. eapply grows_put; [exact Y|]. cbn. auto.
Qed.

(** ** The constants and structures of a source *)
Fixpoint consts_of (s : stmt) : list (text * expr) :=
  match s with
  | SAsg _ op (EId x _) e => if tok_eqb op DECLARECONST then [(x, e)] else []
  | SBlock _ ss => flat_map consts_of ss
  | SProc _ _ body => consts_of body
  | SIf _ _ a None => consts_of a
  | SIf _ _ a (Some b) => consts_of a ++ consts_of b
  | SWhile _ _ b => consts_of b
  | SFor _ i _ st b => consts_of i ++ consts_of st ++ consts_of b
  | _ => []
  end.
(** [program] of GrammarStmt.v with the names of the structures *)
Inductive program_with : tbl -> list token -> token -> list stmt -> list text -> tbl -> Prop :=
| pw_end T x : tk x = TEOF -> program_with T [] x [] [] T
| pw_struct T s t n a T1 b x ss ns T' : tk_lexeme t = Some n -> spells_struct T (s :: t :: a) T1 -> program_with T1 b x ss ns T' ->
    program_with T ((s :: t :: a) ++ b) x ss (n :: ns) T'
| pw_stmt T a st T1 b x ss ns T' : sentence T a (ahead b x) st T1 -> program_with T1 b x ss ns T' -> program_with T (a ++ b) x (st :: ss) ns T'.
Lemma program_names T a x ss T' : program T a x ss T' <-> exists ns, program_with T a x ss ns T'.
Proof.
  split.
  - induction 1 as [T x E|T a T1 b x ss T' St _ (ns & IH)|T a st T1 b x ss T' St _ (ns & IH)].
    + exists []. constructor. exact E.
    + destruct St as [T0 s t n id T1 nm fs o a c T2 nm' d' f fs' A B C D E F G H I J]. exists (n :: ns).
      eapply (pw_struct T0 s t n (o :: a ++ [c])); [exact D| |exact IH]. eapply sr; eauto.
    + exists ns. econstructor; eauto.
  - intros (ns & P). induction P; [constructor; auto|eapply pr_struct; eauto|eapply pr_stmt; eauto].
Qed.

(** [k] is the constant the literal [e] of the tokens [a] stands for *)
Definition literal (t : tbl) (a : list token) (e : expr) (k : constv) : Prop :=
  constant e k /\ forall i, k = KStr i -> exists l x, In l a /\ tk l = STRING /\ tk_lexeme l = Some x /\ get_string t i = Ok (until_nul x).
Definition declared (t : tbl) (a : list token) (l : list (text * expr)) : Prop :=
  forall x e, In (x, e) l -> exists id k, literal t a e k /\ find_const_symbol t x = Some (mkSym id x (SyConst k)) /\ global_ref t x = Some (RConst id).
Lemma declared_none t a : declared t a []. Proof. intros x e []. Qed.
Lemma declared_app t a l l' : declared t a l -> declared t a l' -> declared t a (l ++ l').
Proof. intros A B x e I. apply in_app_or in I as [I|I]; eauto. Qed.
Lemma declared_more t t' a a' l : stay t t' -> incl a a' -> declared t a l -> declared t' a' l.
Proof.
  intros S J D x e I. destruct (D x e I) as (id & k & (C & L) & F & M). exists id, k. split; [|split; [eapply const_stays; eauto|eapply meaning_stays; eauto]]. split; [exact C|].
  intros i E. destruct (L i E) as (t0 & y & It & K & Lx & G). exists t0, y. split; [apply J; exact It|]. split; [exact K|]. split; [exact Lx|eapply string_stays; eauto].
Qed.
Lemma interned x T i T' : intern x T = COk i T' -> get_string T' i = Ok (until_nul x).
Proof.
  unfold intern, register_string, get_string. destruct (find_string _ _ _) as [k|] eqn:F.
  - intros [= <- <-]. cbn. apply find_string_some in F as (_ & F). rewrite Nat.sub_0_r in F. rewrite F. reflexivity.
  - destruct (length (tb_strings T) <? max_strings); [|discriminate]. cbn. intros [= <- <-]. cbn. rewrite nth_error_app2, Nat.sub_diag by lia. reflexivity.
Qed.
Lemma string_literal p T a e T' : spells p T a e T' -> forall i, e = EStr i -> exists l x, In l a /\ tk l = STRING /\ tk_lexeme l = Some x /\ get_string T' i = Ok (until_nul x).
Proof.
  induction 1; intros j Ej; try discriminate Ej; auto. injection Ej as ->. exists t, x. split; [left; reflexivity|]. split; [assumption|]. split; [assumption|].
  eapply interned; eauto.
Qed.

Definition Gs (T : tbl) (a : list token) (l : list (text * expr)) (T' : tbl) : Prop := sound T -> sound T' /\ stay T T' /\ declared T' a l.
Lemma gs_grows T a T' : grows T T' -> Gs T a [] T'.
Proof. intros G S. destruct (G S). split; [|split]; auto. apply declared_none. Qed.
Lemma gs_seq T a l T1 a' l' T' b : Gs T a l T1 -> Gs T1 a' l' T' -> incl a b -> incl a' b -> Gs T b (l ++ l') T'.
Proof.
  intros A B Ia Ib S. destruct (A S) as (S1 & K1 & D1). destruct (B S1) as (S2 & K2 & D2). split; [exact S2|]. split; [eapply stay_trans; eauto|].
  apply declared_app; [exact (declared_more _ _ _ _ _ K2 Ia D1)|eapply declared_more; [apply stay_refl|exact Ib|exact D2]].
Qed.
Lemma gs_before T T1 a l T' b : grows T T1 -> Gs T1 a l T' -> incl a b -> Gs T b l T'.
Proof. intros G A I. apply (gs_seq T [] [] T1 a l T' b (gs_grows _ _ _ G) A); [intros x []|exact I]. Qed.
Lemma gs_after T a l T1 T' : Gs T a l T1 -> grows T1 T' -> Gs T a l T'.
Proof. intros A G. rewrite <- (app_nil_r l). exact (gs_seq T a l T1 [] [] T' a A (gs_grows _ _ _ G) (incl_refl _) ltac:(intros x [])). Qed.

Ltac inside := let x := fresh in let H := fresh in intros x H; repeat (progress (rewrite ?in_app_iff; cbn [In])); tauto.
Lemma open_grows T : grows T (open_scope T). Proof. apply grows_syms; reflexivity. Qed.
Lemma stmts_declared :
  (forall T a x st T', sentence T a x st T' -> Gs T a (consts_of st) T') /\ (forall T a x ss T', sentences T a x ss T' -> Gs T a (flat_map consts_of ss) T').
Proof.
  apply sentence_ind2.
  - intros T o a c x ss T1 T' _ _ _ IH Cl. eapply gs_after; [|eapply grows_close; eauto]. eapply gs_before; [apply open_grows|exact IH|inside].
  - intros T f t nm id T1 o a ps T2 c T3 b g T4 T5 d x st T6 T7 _ F0 _ _ Df _ Sp Dp _ Sr Sr2 _ IH Cl. cbn [consts_of].
    apply (gs_after _ _ _ T7); [|apply grows_syms; reflexivity]. eapply gs_after; [|eapply grows_close; eauto].
    eapply gs_before; [|exact IH|inside]. eapply grows_trans; [eapply grows_function; eauto|]. eapply grows_trans; [apply (grows_syms T1 (set_func T1 (Some id))); reflexivity|].
    eapply grows_trans; [eapply grows_params; eauto|]. eapply grows_trans; [eapply grows_declares; eauto|]. eapply grows_trans; [eapply grows_result; eauto|].
    eapply grows_trans; [eapply grows_ret; eauto|apply open_grows].
  - intros T i a e T1 b x st T' _ E _ _ IH _. eapply gs_before; [eapply grows_expr; eauto|exact IH|inside].
  - intros T i a e T1 b st1 T2 l d x st2 T' _ E _ _ IH1 _ _ IH2. cbn [consts_of]. eapply gs_before; [eapply grows_expr; eauto| |apply incl_refl].
    eapply gs_seq; [exact IH1|exact IH2|inside|inside].
  - intros T w a e T1 b x st T2 T' _ E _ _ IH Cl. cbn [consts_of]. eapply gs_after; [|eapply grows_close; eauto].
    eapply gs_before; [eapply grows_trans; [eapply grows_expr; eauto|apply open_grows]|exact IH|inside].
  - intros T f a m1 st1 T1 b e T2 m2 c st2 T3 d x st3 T4 T' _ _ _ _ IH1 E _ IH2 _ IH3 Cl. cbn [consts_of]. eapply gs_after; [|eapply grows_close; eauto].
    eapply gs_before; [apply open_grows| |apply incl_refl]. eapply gs_seq; [exact IH1| |inside|apply incl_refl].
    eapply gs_before; [eapply grows_expr; eauto| |apply incl_refl]. eapply gs_seq; [exact IH2|exact IH3|inside|inside].
  - intros. apply gs_grows, grows_refl.
  - intros. apply gs_grows. eapply grows_expr; eauto.
  - intros. apply gs_grows, grows_refl.
  - intros. apply gs_grows, grows_refl.
  - intros. apply gs_grows, grows_refl.
  - intros T a x f es T' (E & _). apply gs_grows. eapply grows_expr; eauto.
  - intros T t y r d v T1 a e x T' _ _ _ _ Dc E _. apply gs_grows. eapply grows_trans; [eapply grows_var; eauto|eapply grows_expr; eauto].
  - intros T t y r c v T1 b g T2 T3 q a e x T' _ _ _ _ Dc St Sv _ E _. apply gs_grows. eapply grows_trans; [eapply grows_var; eauto|].
    eapply grows_trans; [eapply grows_type; eauto|]. eapply grows_trans; [eapply grows_var_tag; eauto|eapply grows_expr; eauto].
  - intros T a y r T1 d b e k x T2 T' (E1 & _) Kd E2 _ Ck Dc. destruct (declared_const _ _ _ _ Dc) as (G3 & id & Fd).
    assert (G : grows T T') by (eapply grows_trans; [eapply grows_expr; eauto|]; eapply grows_trans; [eapply grows_expr; eauto|exact G3]).
    intros S. destruct (G S) as (S' & St). split; [exact S'|]. split; [exact St|]. intros z e0 [[= <- <-]|[]]. exists id, k. split; [|exact Fd]. split; [exact Ck|].
    intros i ->. inversion Ck; subst. destruct (string_literal _ _ _ _ _ E2 i eq_refl) as (l & s & Il & A & B & C). exists l, s.
    split; [apply in_or_app; right; right; exact Il|]. split; [exact A|]. split; [exact B|].
    destruct (grows_expr _ _ _ _ _ E1 S) as (S1 & _). destruct (grows_expr _ _ _ _ _ E2 S1) as (S2 & _). destruct (G3 S2) as (_ & St3). eapply string_stays; eauto.
  - intros T a l T1 o b e x T' (E1 & _) _ _ Nd _ Nc E2 _. 
    assert (Q : tok_eqb (tk o) DECLARECONST = false) by (destruct (tok_eqb (tk o) DECLARECONST) eqn:Q; auto; apply tok_eqb_eq in Q; contradiction).
    replace (consts_of (SAsg (tk_line o) (tk o) l e)) with (@nil (text * expr)) by (cbn [consts_of]; rewrite Q; destruct l; auto).
    apply gs_grows. eapply grows_trans; eapply grows_expr; eauto.
  - intros. apply gs_grows, grows_refl.
  - intros T a st T1 b x ss T' _ IH1 _ IH2. cbn [flat_map]. eapply gs_seq; [exact IH1|exact IH2|inside|inside].
Qed.

Lemma structure_found T s t n a T' : spells_struct T (s :: t :: a) T' -> tk_lexeme t = Some n -> sound T -> find_type_symbol T' n <> None.
Proof.
  intros St Lx S. inversion St; subst. match goal with H : tk_lexeme t = Some ?y |- _ => assert (y = n) by congruence; subst y; clear H end.
  match goal with A : declare_struct _ _ _ = COk ?i ?T2, B : sym_at ?T2 ?i = Some _, C : spells_fields _ _ _ _ |- _ => rename A into E, B into Y, C into Sf; set (U := T2) in * end.
  destruct (grows_struct _ _ _ _ _ E S) as (S1 & _).
  assert (Fd : exists y, find (is_type_named n) (tb_syms U) = Some y /\ (sy_body y = SyForeignTag \/ sy_id y = id)).
  { clear - E. revert E. unfold declare_struct, get_struct_tag. destruct (find (is_struct_named n) (tb_syms T)) as [y|] eqn:F.
    - intros [= <- Eu]. subst U. rewrite <- Eu. clear - F. induction (tb_syms T) as [|z l IH]; [discriminate|]. cbn [find] in *. unfold is_type_named at 1. unfold is_struct_named at 1 in F.
      destruct z as [i m b]. cbn [sy_body sy_name] in *. destruct b; try (destruct (IH F) as (q & Q); exists q; exact Q).
      + destruct (text_eqb m n); [injection F as <-; eexists; split; [reflexivity|right; reflexivity]|destruct (IH F) as (q & Q); exists q; exact Q].
      + destruct (text_eqb m n); [eexists; split; [reflexivity|left; reflexivity]|destruct (IH F) as (q & Q); exists q; exact Q].
    - intros [= <- Eu]. subst U. rewrite <- Eu. cbn [tb_syms]. destruct (find (is_type_named n) (tb_syms T)) as [y|] eqn:F2.
      + exists y. split; [rewrite find_app, F2; reflexivity|]. left. apply find_some in F2 as (I2 & N2). pose proof (find_none _ _ F _ I2) as N3.
        destruct y as [i m b]. unfold is_type_named, is_struct_named in *. cbn [sy_body sy_name] in *. destruct b; try discriminate; auto. congruence.
      + exists (mkSym (tb_next T) n (SyStruct false [])). split; [|right; reflexivity]. apply find_last; auto. unfold is_type_named. cbn. apply text_eqb_refl. }
  destruct Fd as (y & Fy & Ky).
  assert (G : find_type_symbol (put_body U id (SyStruct true fs)) n <> None).
  { unfold find_type_symbol. destruct (prim_tag n); [discriminate|].
    assert (X : stay U (put_body U id (SyStruct true fs))) by (eapply stay_put; [apply S1|exact Y|cbn; auto]).
    destruct X as ((l1 & l2 & El & F2) & _). destruct (find_like _ (is_type_named n) _ (type_like n) l1 l2 F2 _ Fy) as (z & Fz & L). rewrite El, Fz.
    destruct Ky as [Ky|Ky].
    - destruct z as [i m b], L as (_ & _ & L). rewrite Ky in L. cbn in L. destruct b; try contradiction. discriminate.
    - assert (Iz : In z (tb_syms (put_body U id (SyStruct true fs)))) by (rewrite El; apply find_some in Fz; tauto).
      destruct L as (Li & _). cbn [put_body set_syms tb_syms] in Iz. apply in_map_iff in Iz as (w & Ew & _). destruct (Nat.eqb_spec (sy_id w) id) as [Q|Q].
      + subst z. discriminate.
      + subst z. congruence. }
  destruct (find_type_symbol (put_body U id (SyStruct true fs)) n) as [g|] eqn:Fg; [|congruence].
  assert (S2 : sound (put_body U id (SyStruct true fs))) by (eapply (grows_put U id); [exact Y|cbn; auto|exact S1]).
  destruct (grows_fields _ _ _ _ Sf S2) as (_ & St2). rewrite (type_stays _ _ _ _ St2 Fg). discriminate.
Qed.

Lemma program_declared T a x ss ns T' : program_with T a x ss ns T' -> sound T ->
  sound T' /\ stay T T' /\ declared T' a (flat_map consts_of ss) /\ forall n, In n ns -> find_type_symbol T' n <> None.
Proof.
  induction 1 as [T x _|T s t n a T1 b x ss ns T' Lx St _ IH|T a st T1 b x ss ns T' St _ IH]; intros S.
  - split; [exact S|]. split; [apply stay_refl|]. split; [apply declared_none|]. intros n [].
  - destruct (grows_structure _ _ _ St S) as (S1 & K1). destruct (IH S1) as (S2 & K2 & D & N). split; [exact S2|]. split; [eapply stay_trans; eauto|].
    split; [eapply declared_more; [apply stay_refl| |exact D]; inside|]. intros m [<-|I]; [|auto]. pose proof (structure_found _ _ _ _ _ _ St Lx S) as F.
    destruct (find_type_symbol T1 n) as [g|] eqn:Fg; [|congruence]. rewrite (type_stays _ _ _ _ K2 Fg). discriminate.
  - destruct (proj1 stmts_declared _ _ _ _ _ St S) as (S1 & K1 & D1). destruct (IH S1) as (S2 & K2 & D & N). split; [exact S2|]. split; [eapply stay_trans; eauto|].
    split; [|exact N]. cbn [flat_map]. apply declared_app; [eapply declared_more; [exact K2| |exact D1]; inside|eapply declared_more; [apply stay_refl| |exact D]; inside].
Qed.
