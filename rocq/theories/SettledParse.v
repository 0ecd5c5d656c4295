(** * What the parser leaves for the type checker *)
From Verif Require Import Base Token Lexer Values Strings Syntax Symbols Code Parser Resolve Compile Layout CompileProofs TableInv ParserInv Host HostInv TagTable TagParse TagResolve.
From Verif Require Import Grammar GrammarStmt Settled.
Local Open Scope nat_scope.

(** Types in casts exist, [new] names a structure *)
Fixpoint ok_t (t : tbl) (e : expr) : Prop :=
  let all := fix all (es : list expr) : Prop := match es with [] => True | e :: es' => ok_t t e /\ all es' end in
  match e with
  | ECall _ args => all args
  | ENew id _ args => is_struct t id /\ all args
  | EBin _ l r | EIndex l r => ok_t t l /\ ok_t t r
  | EUn _ e | EParen e | EDot e _ => ok_t t e
  | ECast e g => ok_t t e /\ live t g
  | ETern c a b => ok_t t c /\ ok_t t a /\ ok_t t b
  | _ => True
  end.
Definition ok_ts (t : tbl) := fix all (es : list expr) : Prop := match es with [] => True | e :: es' => ok_t t e /\ all es' end.
Definition ok_e (t : tbl) (D : list vref) (e : expr) : Prop := Forall (ok_ref t D) (urefs e) /\ ok_t t e.
Definition ok_es (t : tbl) (D : list vref) (es : list expr) : Prop := Forall (ok_ref t D) (flat_map urefs es) /\ ok_ts t es.
Fixpoint ok_s (t : tbl) (D : list vref) (fn : bool) (s : stmt) : Prop :=
  let all := fix all (D : list vref) (ss : list stmt) : Prop :=
    match ss with [] => True | s :: ss' => ok_s t D fn s /\ all (D ++ targets s) ss' end in
  match s with
  | SBreak _ | SContinue _ | SUse _ _ _ _ => True
  | SCall _ _ args => ok_es t D args
  | SAsg _ op l r =>
      if tok_eqb op DECLARE then
        match l with
        | EId _ (Some v) => ok_e t (D ++ [v]) r /\ is_var t v /\ forall id, v <> RConst id
        | _ => False
        end
      else ok_e t D l /\ ok_e t D r
  | SBlock _ ss => all D ss
  | SProc _ f b => is_func t f /\ ok_s t D true b
  | SIf _ c a b => ok_e t D c /\ ok_s t D fn a /\ match b with Some b' => ok_s t (D ++ targets a) fn b' | None => True end
  | SWhile _ c b => ok_e t D c /\ ok_s t D fn b
  | SFor _ i c st b => ok_s t D fn i /\ ok_e t (D ++ targets i) c /\ ok_s t (D ++ targets i) fn st /\ ok_s t (D ++ targets i ++ targets st) fn b
  | SReturn _ oe => fn = true /\ match oe with Some e => ok_e t D e | None => True end
  end.
Definition ok_ss (t : tbl) (fn : bool) := fix all (D : list vref) (ss : list stmt) : Prop :=
    match ss with [] => True | s :: ss' => ok_s t D fn s /\ all (D ++ targets s) ss' end.

Lemma ok_ref_more t t' D D' r : mono t t' -> incl D D' -> ok_ref t D r -> ok_ref t' D' r.
Proof. intros M J [K|K]; [left; eapply mono_knows; eauto|right; auto]. Qed.
Lemma ok_t_more t t' e : mono t t' -> ok_t t e -> ok_t t' e.
Proof.
  intros M. induction e using expr_ind'; cbn [ok_t]; auto.
  - intros A. induction H as [|z l Hz _ IHl]; [exact Logic.I|]. destruct A as (A1 & A2). split; [apply Hz; exact A1|exact (IHl A2)].
  - intros (A & B). auto.
  - intros (S & A). split; [eapply mono_struct; eauto|]. induction H as [|z l Hz _ IHl]; [exact Logic.I|]. destruct A as (A1 & A2). split; [apply Hz; exact A1|exact (IHl A2)].
  - intros (A & B). split; auto. eapply mono_live; eauto.
  - intros (A & B). auto.
  - intros (A & B & C). auto.
Qed.
Lemma ok_e_more t t' D D' e : mono t t' -> incl D D' -> ok_e t D e -> ok_e t' D' e.
Proof. intros M J (A & B). split; [|eapply ok_t_more; eauto]. revert A. apply Forall_impl. intros; eapply ok_ref_more; eauto. Qed.
Lemma ok_es_more t t' D D' e : mono t t' -> incl D D' -> ok_es t D e -> ok_es t' D' e.
Proof.
  intros M J (A & B). split; [revert A; apply Forall_impl; intros; eapply ok_ref_more; eauto|].
  clear A. induction e; auto. destruct B as (B & C). split; auto. eapply ok_t_more; eauto.
Qed.
Lemma ok_s_more t t' s : mono t t' -> forall D fn, ok_s t D fn s -> ok_s t' D fn s.
Proof.
  intros M. induction s using stmt_ind'; intros D fn; cbn [ok_s]; auto.
  - apply ok_es_more; auto. apply incl_refl.
  - destruct (tok_eqb o DECLARE).
    + destruct l; auto. destruct r0; auto. intros (A & B & C). split; [eapply ok_e_more; eauto; apply incl_refl|]. split; auto. eapply mono_var; eauto.
    + intros (A & B). split; (eapply ok_e_more; [exact M|apply incl_refl|auto]).
  - revert D. induction H as [|z l Hz _ IHl]; intros D A; [exact Logic.I|]. destruct A as (A1 & A2). split; [apply Hz; exact A1|exact (IHl _ A2)].
  - intros (A & B). split; auto. eapply mono_func; eauto.
  - intros (A & B & C). split; [eapply ok_e_more; [exact M|apply incl_refl|auto]|]. split; auto. destruct b; auto.
  - intros (A & B). split; auto. eapply ok_e_more; [exact M|apply incl_refl|auto].
  - intros (A & B & C & E). split; auto. split; [eapply ok_e_more; [exact M|apply incl_refl|auto]|]. auto.
  - intros (A & B). split; auto. destruct e; auto. eapply ok_e_more; [exact M|apply incl_refl|auto].
Qed.
Lemma ok_ss_more t t' ss : mono t t' -> forall D fn, ok_ss t fn D ss -> ok_ss t' fn D ss.
Proof. intros M. induction ss as [|s ss IH]; intros D fn; [auto|]. intros (A & B). split; [eapply ok_s_more; eauto|apply IH; exact B]. Qed.

(** ** Types and expressions *)
Definition next (T : tbl) (D : list vref) (o : option nat) (T' : tbl) : Prop := inv T' D o /\ mono T T' /\ tb_func T' = tb_func T.
Lemma next_refl T D o : inv T D o -> next T D o T.
Proof. intros I. split; auto. split; auto. apply mono_refl. Qed.

Lemma type_next T a g T' D o : spells_type T a g T' -> inv T D o -> next T D o T' /\ live T' g.
Proof.
  intros [T0 t x g0 T1 K L E|T0 t x g0 T1 q g' T2 K L E N Q E2] I.
  - destruct (keeps_tag_from_name _ _ _ _ _ _ E I) as (I1 & M1 & F1 & Fl). split; [split; auto|]. apply flat_live; auto.
  - destruct (keeps_tag_from_name _ _ _ _ _ _ E I) as (I1 & M1 & F1 & Fl). destruct (keeps_nullable _ _ _ _ _ _ E2 Fl I1) as (I2 & M2 & F2 & Li).
    split; auto. split; auto. split; [eapply mono_trans; eauto|congruence].
Qed.

Definition Pe (T : tbl) (e : expr) (T' : tbl) : Prop := forall D o, inv T D o -> next T D o T' /\ ok_e T' D e.
Definition Pes (T : tbl) (es : list expr) (T' : tbl) : Prop := forall D o, inv T D o -> next T D o T' /\ ok_es T' D es.
Lemma next_trans a b c D o D' o' : next a D o b -> next b D' o' c -> next a D' o' c.
Proof. intros (A & B & C) (X & Y & Z). split; auto. split; [eapply mono_trans; eauto|congruence]. Qed.
Lemma ok_e_one (f : expr -> expr) T D e : (urefs (f e) = urefs e) -> (ok_t T (f e) <-> ok_t T e) -> ok_e T D e -> ok_e T D (f e).
Proof. intros A B (X & Y). unfold ok_e. rewrite A. tauto. Qed.
Lemma ok_e_two (f : expr -> expr -> expr) T D e e' : (urefs (f e e') = urefs e ++ urefs e') -> (ok_t T (f e e') <-> ok_t T e /\ ok_t T e') ->
  ok_e T D e -> ok_e T D e' -> ok_e T D (f e e').
Proof. intros A B (X & Y) (Z & W). unfold ok_e. rewrite A, B, Forall_app. tauto. Qed.

Lemma exprs_next :
  (forall p T a e T', spells p T a e T' -> Pe T e T') /\ (forall T a es T', spells_args T a es T' -> Pes T es T') /\
  (forall T a ns es T', spells_inits T a ns es T' -> Pes T es T').
Proof.
  apply spells_ind3; unfold Pe, Pes.
  - (* bin *) intros T a l T1 o t b r T2 _ _ IH1 _ _ IH2 D oo I. destruct (IH1 _ _ I) as (N1 & O1). destruct (IH2 _ _ (proj1 N1)) as (N2 & O2).
    split; [eapply next_trans; eauto|]. apply ok_e_two; [reflexivity|reflexivity| |exact O2]. eapply ok_e_more; [apply N2|apply incl_refl|exact O1].
  - auto.
  - intros T t a e T' _ _ IH D oo I. destruct (IH _ _ I) as (N & O). split; auto.
  - intros T t a e T' _ _ IH D oo I. destruct (IH _ _ I) as (N & O). split; auto.
  - (* ternary *) intros T i c e1 T1 x a e2 T2 el b e3 T3 _ _ _ IH1 _ _ IH2 _ IH3 D oo I. destruct (IH1 _ _ I) as (N1 & O1). destruct (IH2 _ _ (proj1 N1)) as (N2 & O2).
    destruct (IH3 _ _ (proj1 N2)) as (N3 & O3). pose proof (next_trans _ _ _ _ _ _ _ N2 N3) as N23. split; [eapply next_trans; eauto|].
    pose proof (ok_e_more _ _ _ _ _ (proj1 (proj2 N23)) (incl_refl _) O1) as (A1 & B1). pose proof (ok_e_more _ _ _ _ _ (proj1 (proj2 N3)) (incl_refl _) O2) as (A2 & B2).
    destruct O3 as (A3 & B3). split; [cbn [urefs]; rewrite !Forall_app; auto|]. cbn. auto.
  - intros T t _ D o I. split; [apply next_refl; auto|split; [constructor|exact Logic.I]].
  - intros T t _ D o I. split; [apply next_refl; auto|split; [constructor|exact Logic.I]].
  - intros T t _ D o I. split; [apply next_refl; auto|split; [constructor|exact Logic.I]].
  - intros T t _ D o I. split; [apply next_refl; auto|split; [constructor|exact Logic.I]].
  - intros T t _ D o I. split; [apply next_refl; auto|split; [constructor|exact Logic.I]].
  - intros T t x i T' _ _ E D o I. destruct (keeps_intern _ _ _ _ _ _ E I) as (I1 & M1 & F1 & _). split; [split; auto|split; [constructor|exact Logic.I]].
  - intros T t x r T' _ _ E D o I. pose proof (reference_variable_same _ _ _ _ E). subst T'. split; [apply next_refl; auto|].
    split; [|exact Logic.I]. destruct r as [r|]; cbn; [|constructor]. constructor; [|constructor]. eapply reference_ok; eauto.
  - intros T t x o a es c T' _ _ _ _ _ IH D oo I. destruct (IH _ _ I) as (N & O). split; auto.
  - intros T o a e c T' _ _ _ IH D oo I. destruct (IH _ _ I) as (N & O). split; auto.
  - intros T n t x id T1 o a ns es c T' _ _ E _ _ _ IH D oo I. destruct (keeps_declare_struct _ _ _ _ _ _ E I) as (I1 & M1 & F1 & S1).
    destruct (IH _ _ I1) as (N & (A & B)). split; [eapply next_trans; [|exact N]; split; eauto|]. split; [exact A|]. cbn. split; [eapply mono_struct; [apply N|exact S1]|exact B].
  - intros T k o a e T1 m b g c T' _ _ _ _ _ IH St D oo I. destruct (IH _ _ I) as (N & O). destruct (type_next _ _ _ _ _ _ St (proj1 N)) as (N2 & Li).
    split; [eapply next_trans; eauto|]. destruct (ok_e_more _ _ _ _ _ (proj1 (proj2 N2)) (incl_refl _) O) as (A & B). split; [exact A|]. cbn. auto.
  - intros T a e T1 o b i c T' _ IH1 _ _ _ IH2 D oo I. destruct (IH1 _ _ I) as (N1 & O1). destruct (IH2 _ _ (proj1 N1)) as (N2 & O2).
    split; [eapply next_trans; eauto|]. apply ok_e_two; [reflexivity|reflexivity| |exact O2]. eapply ok_e_more; [apply N2|apply incl_refl|exact O1].
  - intros T a e T' d t x _ IH _ _ _ D oo I. destruct (IH _ _ I) as (N & O). split; auto.
  - intros T a e T1 d t x o b es c T' _ IH1 _ _ _ _ _ _ IH2 D oo I. destruct (IH1 _ _ I) as (N1 & O1). destruct (IH2 _ _ (proj1 N1)) as (N2 & (A2 & B2)).
    split; [eapply next_trans; eauto|]. destruct (ok_e_more _ _ _ _ _ (proj1 (proj2 N2)) (incl_refl _) O1) as (A & B).
    split; [cbn [urefs flat_map]; apply Forall_app; auto|]. cbn. auto.
  - intros T D o I. split; [apply next_refl; auto|split; [constructor|exact Logic.I]].
  - intros T a e T' _ IH D o I. destruct (IH _ _ I) as (N & (A & B)). split; auto. split; [cbn; rewrite app_nil_r; exact A|split; [exact B|exact Logic.I]].
  - intros T a e T1 c b es T' _ IH1 _ _ IH2 D oo I. destruct (IH1 _ _ I) as (N1 & O1). destruct (IH2 _ _ (proj1 N1)) as (N2 & (A2 & B2)).
    split; [eapply next_trans; eauto|]. destruct (ok_e_more _ _ _ _ _ (proj1 (proj2 N2)) (incl_refl _) O1) as (A & B).
    split; [cbn [flat_map]; apply Forall_app; auto|]. split; auto.
  - intros T D o I. split; [apply next_refl; auto|split; [constructor|exact Logic.I]].
  - intros T f ns a e T' _ _ IH D o I. destruct (IH _ _ I) as (N & (A & B)). split; auto. split; [cbn; rewrite app_nil_r; exact A|split; [exact B|exact Logic.I]].
  - intros T f ns a e T1 c b ns' es T' _ _ IH1 _ _ IH2 D oo I. destruct (IH1 _ _ I) as (N1 & O1). destruct (IH2 _ _ (proj1 N1)) as (N2 & (A2 & B2)).
    split; [eapply next_trans; eauto|]. destruct (ok_e_more _ _ _ _ _ (proj1 (proj2 N2)) (incl_refl _) O1) as (A & B).
    split; [cbn [flat_map]; apply Forall_app; auto|]. split; auto.
Qed.
Definition expr_next p T a e T' (H : spells p T a e T') : Pe T e T' := proj1 exprs_next p T a e T' H.

(** ** Functions, structures *)
Lemma params_next T a ps T' : spells_params T a ps T' -> forall D o, inv T D o -> next T D o T' /\ Forall (fun p => live T' (snd p)) ps.
Proof.
  induction 1 as [T|T t x c a g T' _ _ _ St|T t x c a g T1 m b ps T' _ _ _ St _ _ IH]; intros D o I.
  - split; [apply next_refl; auto|constructor].
  - destruct (type_next _ _ _ _ _ _ St I) as (N & L). split; auto.
  - destruct (type_next _ _ _ _ _ _ St I) as (N & L). destruct (IH _ _ (proj1 N)) as (N2 & L2). split; [eapply next_trans; eauto|]. constructor; auto.
    cbn. eapply mono_live; [apply N2|exact L].
Qed.
Lemma declares_next n T ps T' : declares_params n T ps T' -> forall D o, inv T D o -> Forall (fun p => live T (snd p)) ps -> next T D o T'.
Proof.
  induction 1 as [T|T x g T1 ps T' E _ IH]; intros D o I F; [apply next_refl; auto|]. inversion F as [|? ? L F']; subst.
  destruct (keeps_argument _ _ _ _ _ _ _ _ E L I) as (I1 & M1 & F1). eapply next_trans; [split; eauto|]. apply IH; auto.
  revert F'. apply Forall_impl. intros p. apply mono_live; auto.
Qed.
Lemma result_next T a g T' D o : spells_result T a g T' -> inv T D o -> next T D o T' /\ live T' g.
Proof.
  intros [T0|T0 c b g0 T1 _ St] I; [split; [apply next_refl; auto|exists KVoid; reflexivity]|]. eapply type_next; eauto.
Qed.
Lemma func_same T f D o : inv T D o -> inv (set_func T f) D o /\ mono T (set_func T f).
Proof. intros I. apply same_move; auto. Qed.
Lemma open_same T D o : inv T D o -> next T D o (open_scope T).
Proof. intros I. destruct (same_move T (open_scope T) D o eq_refl eq_refl I) as (A & B). split; auto. Qed.
Lemma close_next T u T' D o : close_scope T = COk u T' -> inv T D o -> next T D o T'.
Proof. intros E I. destruct (keeps_close _ _ _ _ _ E I) as (A & B & C & _). split; auto. Qed.
Lemma declares_var T x v T' D : declares T x v T' -> inv T D None ->
  inv T' (D ++ [v]) None /\ mono T T' /\ tb_func T' = tb_func T /\ is_var T' v /\ forall id, v <> RConst id.
Proof.
  unfold declares. intros E I. assert (X : declare_local x T = COk v T' \/ declare_global x T = COk v T') by (destruct (tb_func T); auto).
  destruct X as [X|X]; [eapply keeps_local|eapply keeps_global]; eauto.
Qed.

Lemma fields_next id T a T' : spells_fields id T a T' -> forall D o, inv T D o -> next T D o T'.
Proof.
  induction 1 as [T|T t x c a g T1 nm d fs b T' nm' d' fs' _ _ _ Y _ Fi St Y1 _ IH]; intros D o I; [apply next_refl; auto|].
  destruct (type_next _ _ _ _ _ _ St I) as (N & L). pose proof (proj1 N) as I1. eapply next_trans; [exact N|].
  assert (Ef : fs' = fs).
  { pose proof Y1 as Y1'. clear - Y Y1' St I. assert (K : sym_at T1 id = Some (mkSym id nm (SyStruct d fs))).
    { assert (Q : forall x0 T0 g0 T2, tidy T0 -> sym_at T0 id = Some (mkSym id nm (SyStruct d fs)) -> tag_from_name x0 T0 = COk g0 T2 -> sym_at T2 id = Some (mkSym id nm (SyStruct d fs))).
      { intros x0 T0 g0 T2 Ti Y0 E. unfold tag_from_name in E. destruct (prim_tag x0); [injection E as _ <-; auto|]. destruct (find _ _); [injection E as _ <-; auto|].
        cbn in E. injection E as _ <-. eapply new_stay; [exact Ti|reflexivity|exact Y0]. }
      destruct St as [T0 t x g0 T1 K L E|T0 t x g0 T1 q g' T2 K L E N Q1 E2].
      - eapply Q; eauto. apply I.
      - destruct (keeps_tag_from_name _ _ _ _ _ _ E I) as (I1 & _). pose proof (Q _ _ _ _ (proj1 I) Y E) as Z. unfold get_nullable in E2.
        destruct (find _ _); [injection E2 as _ <-; auto|]. destruct (tag_name _ _); try discriminate. injection E2 as _ <-. eapply new_stay; [apply I1|reflexivity|exact Z]. }
    congruence. }
  subst fs'.
  pose proof (proj2 I1 _ _ Y1) as Fo. cbn in Fo.
  assert (Td : tidy (put_body T1 id (SyStruct d' (fs ++ [mkField x g])))).
  { eapply put_nil; eauto; cbn [sy_body tname]; auto; [apply I1|].
    - intros d0 fs0 [= <- <-]. split; eauto. rewrite map_app. cbn. apply (Permutation.Permutation_NoDup (Permutation.Permutation_cons_append _ _)).
      constructor; [apply field_index_none; auto|]. apply sym_at_in in Y1 as (I4 & _). exact (td_fields _ (proj1 I1) _ _ _ I4 eq_refl). }
  destruct (put_move T1 id _ (SyStruct d' (fs ++ [mkField x g])) D D o o I1 Y1 Td Logic.I (incl_refl _) (fun _ _ e => e)) as (I2 & M2).
  { intros K. cbn. apply Forall_app. split; [revert Fo; apply Forall_impl; intros; eapply live_le; [exact K|auto]|]. constructor; [eapply live_le; [exact K|exact L]|constructor]. }
  eapply next_trans; [split; [exact I2|split; [exact M2|reflexivity]]|]. apply IH. exact I2.
Qed.
Lemma struct_next T a T' D o : spells_struct T a T' -> inv T D o -> next T D o T'.
Proof.
  intros [T0 s t x id T1 nm fs op b c T2 nm' d' f fs' _ _ _ _ E Y _ Sf _ _] I.
  destruct (keeps_declare_struct _ _ _ _ _ _ E I) as (I1 & M1 & F1 & _). eapply next_trans; [split; [exact I1|split; [exact M1|exact F1]]|].
  pose proof (proj2 I1 _ _ Y) as Fo. cbn in Fo.
  assert (Td : tidy (put_body T1 id (SyStruct true fs))).
  { eapply put_nil; eauto; cbn [sy_body tname]; auto; [apply I1|].
    - intros d0 fs0 [= <- <-]. split; eauto. apply sym_at_in in Y as (I4 & _). exact (td_fields _ (proj1 I1) _ _ _ I4 eq_refl). }
  destruct (put_move T1 id _ (SyStruct true fs) D D o o I1 Y Td Logic.I (incl_refl _) (fun _ _ e => e)) as (I2 & M2).
  { intros K. cbn. revert Fo. apply Forall_impl. intros; eapply live_le; [exact K|auto]. }
  eapply next_trans; [split; [exact I2|split; [exact M2|reflexivity]]|]. eapply fields_next; eauto.
Qed.

(** ** Statements *)
Definition in_fn (T : tbl) : bool := match tb_func T with Some _ => true | None => false end.
Definition Ps (T : tbl) (st : stmt) (T' : tbl) : Prop := forall D, inv T D None -> next T (D ++ targets st) None T' /\ ok_s T' D (in_fn T) st.
Definition Pss (T : tbl) (ss : list stmt) (T' : tbl) : Prop := forall D, inv T D None -> next T (D ++ flat_map targets ss) None T' /\ ok_ss T' (in_fn T) D ss.
Lemma in_fn_eq T T' : tb_func T' = tb_func T -> in_fn T' = in_fn T.
Proof. unfold in_fn. intros ->. reflexivity. Qed.
Lemma next_nil T D o T' : next T D o T' -> next T (D ++ []) o T'. Proof. rewrite app_nil_r. auto. Qed.

Lemma stmts_next :
  (forall T a x st T', sentence T a x st T' -> Ps T st T') /\ (forall T a x ss T', sentences T a x ss T' -> Pss T ss T').
Proof.
  apply sentence_ind2; unfold Ps, Pss.
  - (* block *) intros T o a c x ss T1 T' _ _ _ IH Cl D I. pose proof (open_same _ _ _ I) as N0. destruct (IH _ (proj1 N0)) as (N1 & O1).
    pose proof (close_next _ _ _ _ _ Cl (proj1 N1)) as N2. split; [exact (next_trans _ _ _ _ _ _ _ N0 (next_trans _ _ _ _ _ _ _ N1 N2))|].
    change (ok_ss T' (in_fn T) D ss). eapply ok_ss_more; [apply N2|exact O1].
  - (* function *) intros T f t nm id T1 o a ps T2 c T3 b g T4 T5 d x st T6 T7 _ F0 _ _ Df _ Sp Dp _ Sr Sr2 _ IH Cl D I.
    destruct (keeps_function _ _ _ _ _ Df I) as (I1 & M1 & F1 & Fn). destruct (func_same T1 (Some id) _ _ I1) as (I1' & M1').
    destruct (params_next _ _ _ _ Sp _ _ I1') as (N2 & L2). pose proof (declares_next _ _ _ _ Dp _ _ (proj1 N2) L2) as N3.
    destruct (result_next _ _ _ _ _ _ Sr (proj1 N3)) as (N4 & L4). destruct (keeps_ret _ _ _ _ _ _ Sr2 L4 (proj1 N4)) as (I5 & M5 & F5).
    pose proof (open_same _ _ _ I5) as N5. destruct (IH _ (proj1 N5)) as (N6 & O6). pose proof (close_next _ _ _ _ _ Cl (proj1 N6)) as N7.
    destruct (func_same T7 None _ _ (proj1 N7)) as (I8 & M8).
    assert (M : mono T1 (set_func T7 None)).
    { eapply mono_trans; [exact M1'|]. eapply mono_trans; [apply N2|]. eapply mono_trans; [apply N3|]. eapply mono_trans; [apply N4|].
      eapply mono_trans; [exact M5|]. eapply mono_trans; [apply N5|]. eapply mono_trans; [apply N6|]. eapply mono_trans; [apply N7|exact M8]. }
    split; [split; [exact I8|split; [eapply mono_trans; eauto|symmetry; exact F0]]|]. cbn [ok_s]. split; [eapply mono_func; [exact M|exact Fn]|].
    assert (Fi : in_fn (open_scope T5) = true).
    { unfold in_fn. cbn. rewrite F5, (proj2 (proj2 N4)), (proj2 (proj2 N3)), (proj2 (proj2 N2)). reflexivity. }
    rewrite Fi in O6. eapply ok_s_more; [|exact O6]. eapply mono_trans; [apply N7|exact M8].
  - (* if *) intros T i a e T1 b x st T' _ E _ _ IH _ D I. destruct (expr_next _ _ _ _ _ E _ _ I) as (N1 & O1). destruct (IH _ (proj1 N1)) as (N2 & O2).
    split; [eapply next_trans; eauto|]. cbn [ok_s]. rewrite (in_fn_eq _ _ (proj2 (proj2 N1))) in O2. split; [eapply ok_e_more; [apply N2|apply incl_refl|exact O1]|]. auto.
  - (* if else *) intros T i a e T1 b st1 T2 l d x st2 T' _ E _ _ IH1 _ _ IH2 D I. destruct (expr_next _ _ _ _ _ E _ _ I) as (N1 & O1).
    destruct (IH1 _ (proj1 N1)) as (N2 & O2). destruct (IH2 _ (proj1 N2)) as (N3 & O3). pose proof (next_trans _ _ _ _ _ _ _ N2 N3) as N23.
    cbn [targets ok_s]. rewrite app_assoc. split; [eapply next_trans; eauto|]. rewrite (in_fn_eq _ _ (proj2 (proj2 N1))) in O2.
    rewrite (in_fn_eq _ _ (proj2 (proj2 N2))), (in_fn_eq _ _ (proj2 (proj2 N1))) in O3.
    split; [eapply ok_e_more; [apply N23|apply incl_refl|exact O1]|]. split; [eapply ok_s_more; [apply N3|exact O2]|exact O3].
  - (* while *) intros T w a e T1 b x st T2 T' _ E _ _ IH Cl D I. destruct (expr_next _ _ _ _ _ E _ _ I) as (N1 & O1). pose proof (open_same _ _ _ (proj1 N1)) as N0.
    destruct (IH _ (proj1 N0)) as (N2 & O2). pose proof (close_next _ _ _ _ _ Cl (proj1 N2)) as N3.
    pose proof (next_trans _ _ _ _ _ _ _ N0 (next_trans _ _ _ _ _ _ _ N2 N3)) as N. split; [eapply next_trans; eauto|]. cbn [ok_s].
    split; [eapply ok_e_more; [apply N|apply incl_refl|exact O1]|]. replace (in_fn T) with (in_fn (open_scope T1)) by (exact (in_fn_eq _ _ (proj2 (proj2 N1)))).
    eapply ok_s_more; [apply N3|exact O2].
  - (* for *) intros T f a m1 st1 T1 b e T2 m2 c st2 T3 d x st3 T4 T' _ _ _ _ IH1 E _ IH2 _ IH3 Cl D I. pose proof (open_same _ _ _ I) as N0.
    destruct (IH1 _ (proj1 N0)) as (N1 & O1). destruct (expr_next _ _ _ _ _ E _ _ (proj1 N1)) as (N2 & O2). destruct (IH2 _ (proj1 N2)) as (N3 & O3).
    destruct (IH3 _ (proj1 N3)) as (N4 & O4). pose proof (close_next _ _ _ _ _ Cl (proj1 N4)) as N5.
    pose proof (next_trans _ _ _ _ _ _ _ N4 N5) as N45. pose proof (next_trans _ _ _ _ _ _ _ N3 N45) as N35. pose proof (next_trans _ _ _ _ _ _ _ N2 N35) as N25.
    cbn [targets ok_s]. rewrite !app_assoc in *. split; [exact (next_trans _ _ _ _ _ _ _ N0 (next_trans _ _ _ _ _ _ _ N1 N25))|].
    assert (F1 : in_fn T1 = in_fn T) by (exact (in_fn_eq _ _ (proj2 (proj2 N1)))). assert (F2 : in_fn T2 = in_fn T) by (rewrite <- F1; exact (in_fn_eq _ _ (proj2 (proj2 N2)))).
    assert (F3 : in_fn T3 = in_fn T) by (rewrite <- F2; exact (in_fn_eq _ _ (proj2 (proj2 N3)))). rewrite F2 in O3. rewrite F3 in O4.
    split; [eapply ok_s_more; [apply N25|exact O1]|]. split; [eapply ok_e_more; [apply N35|apply incl_refl|exact O2]|]. split; [eapply ok_s_more; [apply N45|exact O3]|].
    eapply ok_s_more; [apply N5|exact O4].
  - intros T r m x f _ _ F D I. split; [apply next_nil, next_refl; auto|]. cbn. unfold in_fn. rewrite F. auto.
  - intros T r a e x f i nm ix args locals g T' _ F _ _ E _ D I. destruct (expr_next _ _ _ _ _ E _ _ I) as (N1 & O1). split; [apply next_nil; auto|].
    cbn [ok_s]. unfold in_fn. rewrite F. auto.
  - intros T b x _ D I. split; [apply next_nil, next_refl; auto|exact Logic.I].
  - intros T b x _ D I. split; [apply next_nil, next_refl; auto|exact Logic.I].
  - intros T u t m o a args c b y x _ _ _ _ _ _ _ _ _ D I. split; [apply next_nil, next_refl; auto|exact Logic.I].
  - intros T a x f es T' (E & _) D I. destruct (expr_next _ _ _ _ _ E _ _ I) as (N1 & O1). split; [apply next_nil; auto|exact O1].
  - (* := *) intros T t y r d v T1 a e x T' _ _ _ _ Dc E _ D I. destruct (declares_var _ _ _ _ _ Dc I) as (I1 & M1 & F1 & V1 & C1).
    destruct (expr_next _ _ _ _ _ E _ _ I1) as (N2 & O2). cbn [targets ok_s]. rewrite tok_eqb_refl. split; [eapply next_trans; [split; [exact I1|split; [exact M1|exact F1]]|exact N2]|].
    split; [exact O2|]. split; auto. eapply mono_var; [apply N2|exact V1].
  - (* x: t = e *) intros T t y r c v T1 b g T2 T3 q a e x T' _ _ _ _ Dc St Sv _ E _ D I. destruct (declares_var _ _ _ _ _ Dc I) as (I1 & M1 & F1 & V1 & C1).
    destruct (type_next _ _ _ _ _ _ St I1) as (N2 & L2). destruct (keeps_set_tag _ _ _ _ _ _ _ Sv L2 (proj1 N2)) as (I3 & M3 & F3 & K3).
    assert (I3' : inv T3 D None).
    { split; [apply I3|]. eapply settled_drop; [|apply I3]. intros z J. apply in_app_or in J as [J|[<-|[]]]; auto. }
    destruct (expr_next _ _ _ _ _ E _ _ I3') as (N4 & O4). cbn [targets ok_s]. split.
    + apply next_nil. split; [apply N4|]. split; [|rewrite (proj2 (proj2 N4)), F3, (proj2 (proj2 N2)); exact F1].
      eapply mono_trans; [exact M1|]. eapply mono_trans; [apply N2|]. eapply mono_trans; [exact M3|apply N4].
    + split; [|exact O4]. split; [|exact Logic.I]. cbn. constructor; [|constructor]. left. eapply mono_knows; [apply N4|exact K3].
  - (* x :: e *) intros T a y r T1 d b e k x T2 T' (E1 & _) _ E2 _ _ Dc D I. destruct (expr_next _ _ _ _ _ E1 _ _ I) as (N1 & O1).
    destruct (expr_next _ _ _ _ _ E2 _ _ (proj1 N1)) as (N2 & O2). destruct (keeps_const _ _ _ _ _ _ _ Dc (proj1 N2)) as (I3 & M3 & F3 & _).
    assert (N3 : next T2 D None T') by (split; auto). pose proof (next_trans _ _ _ _ _ _ _ N2 N3) as N23.
    split; [|cbn [ok_s]; split; [eapply ok_e_more; [apply N23|apply incl_refl|exact O1]|eapply ok_e_more; [apply N3|apply incl_refl|exact O2]]].
    replace (targets (SAsg (tk_line d) DECLARECONST (EId y r) e)) with (@nil vref) by (destruct r; reflexivity). apply next_nil. eapply next_trans; eauto.
  - (* l = e *) intros T a l T1 o b e x T' (E1 & _) _ _ Nd _ _ E2 _ D I. destruct (expr_next _ _ _ _ _ E1 _ _ I) as (N1 & O1).
    destruct (expr_next _ _ _ _ _ E2 _ _ (proj1 N1)) as (N2 & O2).
    assert (Q : tok_eqb (tk o) DECLARE = false) by (destruct (tok_eqb (tk o) DECLARE) eqn:Q; auto; apply tok_eqb_eq in Q; contradiction).
    replace (targets (SAsg (tk_line o) (tk o) l e)) with (@nil vref) by (cbn [targets]; rewrite Q; destruct l; auto; destruct r; auto).
    split; [apply next_nil; eapply next_trans; eauto|]. cbn [ok_s]. rewrite Q. split; [eapply ok_e_more; [apply N2|apply incl_refl|exact O1]|exact O2].
  - intros T x D I. split; [apply next_nil, next_refl; auto|exact Logic.I].
  - intros T a st T1 b x ss T' _ IH1 _ IH2 D I. destruct (IH1 _ I) as (N1 & O1). destruct (IH2 _ (proj1 N1)) as (N2 & O2).
    cbn [flat_map]. rewrite app_assoc. split; [eapply next_trans; eauto|]. split; [eapply ok_s_more; [apply N2|exact O1]|]. rewrite (in_fn_eq _ _ (proj2 (proj2 N1))) in O2. exact O2.
Qed.

Lemma program_next T a x ss T' : GrammarStmt.program T a x ss T' -> forall D, inv T D None ->
  next T (D ++ flat_map targets ss) None T' /\ ok_ss T' (in_fn T) D ss.
Proof.
  induction 1 as [T x _|T a T1 b x ss T' St _ IH|T a st T1 b x ss T' St _ IH]; intros D I.
  - split; [apply next_nil, next_refl; auto|exact Logic.I].
  - pose proof (struct_next _ _ _ _ _ St I) as N1. destruct (IH _ (proj1 N1)) as (N2 & O2). split; [eapply next_trans; eauto|].
    rewrite (in_fn_eq _ _ (proj2 (proj2 N1))) in O2. exact O2.
  - destruct (proj1 stmts_next _ _ _ _ _ St _ I) as (N1 & O1). destruct (IH _ (proj1 N1)) as (N2 & O2).
    cbn [flat_map]. rewrite app_assoc. split; [eapply next_trans; eauto|]. split; [eapply ok_s_more; [apply N2|exact O1]|]. rewrite (in_fn_eq _ _ (proj2 (proj2 N1))) in O2. exact O2.
Qed.
