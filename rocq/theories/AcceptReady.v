(** * What type resolution accepts is ready for code generation *)
From Verif Require Import Base Token Values Strings Code Syntax Symbols Resolve Compile Layout CompileProofs TableInv.
From Verif Require Import ParserInv ResolveInv TypingProofs TypingExpr TypingStmt Typing Props_Typing Accept AcceptCode AcceptStmt.
Local Open Scope nat_scope.

Scheme types_mind := Minimality for types Sort Prop
  with arguments_mind := Minimality for arguments Sort Prop
  with designated_mind := Minimality for designated Sort Prop.
Combined Scheme types_ind3 from types_mind, arguments_mind, designated_mind.
Scheme typed_mind := Minimality for well_typed Sort Prop
  with all_typed_mind := Minimality for all_typed Sort Prop.
Combined Scheme typed_ind2 from typed_mind, all_typed_mind.

(** No literal is -2^31 (which the compiler would negate, finding F28) *)
Fixpoint lit_e (e : expr) : Prop :=
  let all := fix all (es : list expr) : Prop := match es with [] => True | e :: es' => lit_e e /\ all es' end in
  match e with
  | EInt z => z <> (- 2^31)%Z
  | EDot e _ | ECast e _ | EParen e | EUn _ e => lit_e e
  | EBin _ l r | EIndex l r => lit_e l /\ lit_e r
  | ETern c a b => lit_e c /\ lit_e a /\ lit_e b
  | ECall _ args | ENew _ _ args => all args
  | _ => True
  end.
Fixpoint lits (es : list expr) : Prop := match es with [] => True | e :: es' => lit_e e /\ lits es' end.
Lemma lit_call f es : lit_e (ECall f es) <-> lits es.
Proof. cbn [lit_e]. induction es as [|e es IH]; cbn; [tauto|]. rewrite IH. tauto. Qed.
Lemma lit_new f ns es : lit_e (ENew f ns es) <-> lits es.
Proof. cbn [lit_e]. induction es as [|e es IH]; cbn; [tauto|]. rewrite IH. tauto. Qed.

Definition small (t : tbl) : Prop := forall id y d fs, sym_at t id = Some y -> sy_body y = SyStruct d fs -> length fs <= 255.
Lemma good_small t : good full t -> small t.
Proof.
  intros G id y d fs Y B. apply sym_at_in in Y as (I & _). pose proof (proj1 (Forall_forall _ _) (gd_body _ _ G) _ I) as X. cbn beta in X.
  rewrite B in X. apply X.
Qed.

Lemma field_in fs f g : field_named fs f g -> exists i, field_index fs f = Some (i, g) /\ i < length fs.
Proof.
  intros F. apply field_at in F. unfold field_index in *. destruct F as (i & F). exists i. split; [exact F|].
  destruct (find_index _ fs 0) as [j|]; [|discriminate]. destruct (nth_error fs j) eqn:E; [|discriminate]. injection F as -> _.
  apply nth_error_Some. congruence.
Qed.

Lemma var_readable t r g : var_type t r g -> readable t r.
Proof.
  intros V. destruct V; cbn [readable]; unfold gidx, cval, lidx; cbn [var_of];
    match goal with D : denotes _ _ _ _ |- _ => apply denotes_at in D; rewrite D end; try congruence.
  - rewrite H0. discriminate.
  - rewrite H0. discriminate.
Qed.

Lemma callee_of t f s : unique t -> function_named t f s -> a_callee t (sy_id s).
Proof.
  intros U F. apply function_at in F. apply find_some in F as (I & E). exists s. split; [apply in_sym_at; auto|].
  unfold is_function in E. destruct (sy_body s); try discriminate; exact Logic.I.
Qed.

Lemma types_ready t : unique t -> small t ->
  (forall e te, types t e te -> lit_e e -> ready_e t te) /\
  (forall ps va es tes, arguments t ps va es tes -> lits es -> readies t tes) /\
  (forall fs ns es tes, designated t fs ns es tes -> lits es -> readies t tes /\ length tes <= length ns /\ Forall (fun x => In x (map fd_name fs)) (firstn (length tes) ns)).
Proof.
  intros U Sm. apply types_ind3; try (intros; exact I).
  - intros name r g V _. eapply var_readable; eauto.
  - intros f args s ps va g tes F _ A IH L. apply ready_call. split; [apply IH; apply lit_call in L; exact L|]. apply function_at in F. congruence.
  - intros e te _ IH L. exact (IH L).
  - intros o l r tl tr g _ IHl _ IHr _ (Ll & Lr). split; auto.
  - intros o e te g T IH Un L. split; [exact (IH L)|]. destruct o; [|exact I]. destruct te; try exact I. inversion T; subst. exact L.
  - intros e te id name d fs f g _ IH Tg D F L. split; [exact (IH L)|]. apply denotes_at in D. apply field_in in F as (i & E & Li).
    exists (Z.of_nat i). unfold field_no. rewrite Tg, D, E. split; [reflexivity|]. pose proof (Sm _ _ _ _ D eq_refl). lia.
  - intros id name fs args tes D _ IH L. apply ready_new. split; [apply IH; apply lit_new in L; exact L|]. apply denotes_at in D. eauto 6.
  - intros id name fs names args tes D N Le _ IH L. apply ready_new. apply (proj1 (lit_new _ _ _)) in L. destruct (IH L) as (A & B & C).
    split; [exact A|]. apply denotes_at in D. exists name, fs. split; [exact D|]. right. auto.
  - intros e te g _ IH _ _ _ L. exact (IH L).
  - intros c a b tc ta tb _ IHc _ IHa _ IHb _ _ (Lc & La & Lb). cbn [ready_e]. auto.
  - intros a i ta ti name s ps va g set _ IHa _ IHi _ F _ So (La & Li). cbn [ready_e]. split; [auto|]. split; [auto|]. split; [eapply callee_of; eauto|].
    destruct So; [eapply callee_of; eauto|exact I].
  - intros p ps va e te es tes _ IHe _ _ IHs (Le & Ls). split; auto.
  - intros e te es tes _ IHe _ IHs (Le & Ls). split; auto.
  - intros fs ns _. cbn. split; [exact I|]. split; [lia|constructor].
  - intros fs name ns g e te es tes _ IHe F _ _ IHs (Le & Ls). destruct (IHs Ls) as (A & B & C). cbn [readies length firstn]. split; [split; auto|]. split; [lia|].
    constructor; [|exact C]. destruct F as (b & a & -> & N & _). cbn in N. rewrite map_app. apply in_or_app. right. left. reflexivity.
Qed.

(** ** Readiness depends on the shape of the table only *)
Lemma callee_shape t t' id : same_shape t t' -> a_callee t id -> a_callee t' id.
Proof.
  intros E (y & Y & C). pose proof (shape_sym_at _ _ id E) as Q. rewrite Y in Q. destruct (sym_at t' id) as [z|] eqn:Z0; cbn [option_map] in Q; [|discriminate].
  exists z. split; [exact Z0|]. eapply erase_callable; [|exact C]. congruence.
Qed.
Lemma struct_shape t t' id nm d fs : same_shape t t' -> sym_at t id = Some (mkSym id nm (SyStruct d fs)) -> sym_at t' id = Some (mkSym id nm (SyStruct d fs)).
Proof.
  intros E Y. pose proof (shape_sym_at _ _ id E) as Q. rewrite Y in Q. destruct (sym_at t' id) as [[a b c]|]; cbn in Q; [|discriminate].
  injection Q as <- <- Q. destruct c; cbn in Q; try discriminate. congruence.
Qed.
Lemma func_shape t t' id nm i args locals ret : same_shape t t' -> sym_at t id = Some (mkSym id nm (SyFunc i args locals ret)) ->
  exists args' locals', sym_at t' id = Some (mkSym id nm (SyFunc i args' locals' ret)).
Proof.
  intros E Y. pose proof (shape_sym_at _ _ id E) as Q. rewrite Y in Q. destruct (sym_at t' id) as [[a b c]|]; cbn in Q; [|discriminate].
  injection Q as <- <- Q. destruct c; cbn in Q; try discriminate. injection Q as <- _ _ <-. eauto.
Qed.
Lemma ready_e_shape t t' e : same_shape t t' -> ready_e t e -> ready_e t' e.
Proof.
  intros E. assert (Rs : forall es, Forall (fun e => ready_e t e -> ready_e t' e) es -> readies t es -> readies t' es).
  { induction 1 as [|x es H F IH]; cbn; [auto|]. intros (A & B). auto. }
  induction e using texpr_ind'; intros R; try exact I.
  - cbn in *. eapply readable_shape; eauto.
  - apply (proj1 (ready_call t f args t0)) in R as (R & F). apply ready_call. split; [auto|]. intros N. apply F. pose proof (shape_reffun _ _ f E) as Q. rewrite N in Q.
    destruct (reference_function t f); [discriminate|reflexivity].
  - destruct R as (A & B). split; auto.
  - destruct R as (A & B). split; auto.
  - exact (IHe R).
  - apply (proj1 (ready_new t t0 ns args)) in R as (R & nm & fs & Y & N). apply ready_new. split; [auto|]. exists nm, fs. split; [eapply struct_shape; eauto|exact N].
  - exact (IHe R).
  - destruct R as (A & k & B). split; [auto|]. exists k. rewrite <- (shape_field_no _ _ _ _ E). exact B.
  - destruct R as (A & B & C & D). split; [exact (IHe1 A)|]. split; [exact (IHe2 B)|]. split; [eapply callee_shape; eauto|]. destruct s; [eapply callee_shape; eauto|exact I].
  - destruct R as (A & B & C). split; [exact (IHe1 A)|]. split; [exact (IHe2 B)|exact (IHe3 C)].
Qed.
Lemma ready_s_shape t t' s : same_shape t t' -> ready_s t s -> ready_s t' s.
Proof.
  intros E. pose proof (fun e => ready_e_shape t t' e E) as Re. assert (Rs : forall ss, Forall (fun s => ready_s t s -> ready_s t' s) ss -> ready_ss t ss -> ready_ss t' ss).
  { induction 1 as [|x es H F IH]; cbn; [auto|]. intros (A & B). auto. }
  induction s using tstmt_ind'; intros R; try exact I.
  - exact (Re _ R).
  - destruct R as (A & B). split; [eapply readable_shape; eauto|auto].
  - destruct R as (A & B). split; auto.
  - apply ready_block. apply (proj1 (ready_block t n ss)) in R. auto.
  - destruct R as ((nm & i & args & locals & ret & Y & L) & B). split; [|exact (IHs B)].
    destruct (func_shape _ _ _ _ _ _ _ _ E Y) as (a' & l' & Y'). exists nm, i, a', l', ret. split; [exact Y'|].
    destruct E as (_ & _ & En & _). rewrite <- En. exact L.
  - destruct R as (A & B & C). split; [auto|]. split; [exact (IHs B)|]. destruct b; [exact (H _ eq_refl C)|exact I].
  - destruct R as (A & B). split; [auto|exact (IHs B)].
  - destruct R as (A & B & C & D). split; [exact (IHs1 A)|]. split; [auto|]. split; [exact (IHs3 C)|exact (IHs2 D)].
  - destruct e; [exact (Re _ R)|exact I].
Qed.

(** ** Statements *)
Fixpoint lit_s (s : stmt) : Prop :=
  let all := fix all (ss : list stmt) : Prop := match ss with [] => True | s :: ss' => lit_s s /\ all ss' end in
  match s with
  | SCall _ f args => lits args
  | SAsg _ _ l r => lit_e l /\ lit_e r
  | SBlock _ ss => all ss
  | SProc _ _ b => lit_s b
  | SIf _ c a b => lit_e c /\ lit_s a /\ match b with Some b' => lit_s b' | None => True end
  | SWhile _ c b => lit_e c /\ lit_s b
  | SFor _ i c st b => lit_s i /\ lit_e c /\ lit_s st /\ lit_s b
  | SReturn _ (Some e) => lit_e e
  | _ => True
  end.
Fixpoint lit_ss (ss : list stmt) : Prop := match ss with [] => True | s :: ss' => lit_s s /\ lit_ss ss' end.
Lemma lit_block n ss : lit_s (SBlock n ss) <-> lit_ss ss.
Proof. cbn [lit_s]. induction ss as [|s ss IH]; cbn; [tauto|]. rewrite IH. tauto. Qed.

Definition a_fn (t : tbl) (f : nat) : Prop := exists nm i args locals ret, sym_at t f = Some (mkSym f nm (SyFunc i args locals ret)) /\ i < tb_nfun t.
Definition fns (t : tbl) (l : list (nat * stmt)) : Prop := Forall (fun p => a_fn t (fst p)) l.
Lemma fns_shape t t' l : same_shape t t' -> fns t l -> fns t' l.
Proof.
  intros E. apply Forall_impl. intros p (nm & i & args & locals & ret & Y & L).
  destruct (func_shape _ _ _ _ _ _ _ _ E Y) as (a' & l' & Y'). exists nm, i, a', l', ret. split; [exact Y'|].
  destruct E as (_ & _ & En & _). rewrite <- En. exact L.
Qed.
Lemma small_shape t t' : same_shape t t' -> small t -> small t'.
Proof.
  intros E H id y d fs Y B. pose proof (shape_sym_at _ _ id E) as Q. rewrite Y in Q. destruct y as [yi yn yb]. cbn in B. subst yb.
  destruct (sym_at t id) as [[a b c]|] eqn:Z0; cbn in Q; [|discriminate]. injection Q as -> -> Q. destruct c; cbn in Q; try discriminate.
  injection Q as -> ->. eapply H; eauto. reflexivity.
Qed.
Lemma typed_shape t s ts t' : unique t -> well_typed t s ts t' -> same_shape t t'.
Proof. intros U W. apply (proj1 (stmt_iff s t ts t' U)) in W. apply (proj1 (stmt_inv _ _ _ _ W)). exact U. Qed.
Lemma all_typed_shape t ss ts t' : unique t -> all_typed t ss ts t' -> same_shape t t' /\ tb_strings t' = tb_strings t.
Proof.
  intros U W. apply program_typed_by_rules in W; [|exact U]. destruct (proj1 (resolve_all_inv _ _ _ _ W) U) as (A & _ & B). auto.
Qed.
Lemma stmts_ready :
  (forall t s ts t', well_typed t s ts t' -> unique t -> small t -> lit_s s -> fns t (ubodies s) -> ready_s t ts) /\
  (forall t ss tss t', all_typed t ss tss t' -> unique t -> small t -> lit_ss ss -> fns t (flat_map ubodies ss) -> ready_ss t tss).
Proof.
  apply typed_ind2; try (intros; exact I).
  - intros t n f args tes g T U S L _. apply (proj1 (types_ready t U S)) in T; [|apply lit_call; exact L].
    apply (proj1 (ready_call t f tes g)) in T. apply (proj2 (ready_call t f tes GVoid)). exact T.
  - intros t n name v e te T _ _ A U S (_ & L) _. split; [|apply (proj1 (types_ready t U S) _ _ T L)].
    destruct A; cbn [readable]; unfold gidx, lidx; cbn [var_of]; match goal with D : denotes _ _ _ _ |- _ => apply denotes_at in D; rewrite D end; [discriminate|..].
    + destruct (nth_error locals i) eqn:N; [discriminate|]. apply nth_error_None in N. lia.
    + destruct (nth_error args i) eqn:N; [discriminate|]. apply nth_error_None in N. lia.
  - intros t n op l e tl te _ Tl Te _ U S (Ll & Le) _. split; [exact (proj1 (types_ready t U S) _ _ Tl Ll)|exact (proj1 (types_ready t U S) _ _ Te Le)].
  - intros t n ss ts t' _ IH U S L F. apply ready_block. apply IH; [exact U|exact S|apply (proj1 (lit_block n ss)); exact L|exact F].
  - intros t n f b tb t' _ IH U S L F. cbn [ubodies] in F. inversion F as [|p l Fp Fb]; subst. split; [exact Fp|]. exact (IH U S L Fb).
  - intros t n c a tc ta t' T _ _ IH U S (Lc & La & _) F. split; [exact (proj1 (types_ready t U S) _ _ T Lc)|]. split; [exact (IH U S La F)|exact I].
  - intros t n c a b tc ta tb t1 t' T _ Wa IHa Wb IHb U S (Lc & La & Lb) F. cbn [ubodies] in F. apply Forall_app in F as (Fa & Fb).
    pose proof (typed_shape _ _ _ _ U Wa) as E. split; [exact (proj1 (types_ready t U S) _ _ T Lc)|]. split; [exact (IHa U S La Fa)|].
    eapply ready_s_shape; [apply shape_sym; exact E|]. apply IHb; [eapply shape_unique; eauto|eapply small_shape; eauto|exact Lb|eapply fns_shape; eauto].
  - intros t n c b tc tb t' T _ _ IH U S (Lc & Lb) F. split; [exact (proj1 (types_ready t U S) _ _ T Lc)|exact (IH U S Lb F)].
  - intros t n i c s b ti tc ts tb t1 t2 t' Wi IHi T _ Ws IHs Wb IHb U S (Li & Lc & Ls & Lb) F. cbn [ubodies] in F.
    apply Forall_app in F as (Fi & F). apply Forall_app in F as (Fs & Fb).
    pose proof (typed_shape _ _ _ _ U Wi) as E1. pose proof (shape_unique _ _ E1 U) as U1. pose proof (small_shape _ _ E1 S) as S1.
    pose proof (typed_shape _ _ _ _ U1 Ws) as E2. pose proof (shape_unique _ _ E2 U1) as U2. pose proof (small_shape _ _ E2 S1) as S2.
    split; [exact (IHi U S Li Fi)|]. split; [eapply ready_e_shape; [apply shape_sym; exact E1|]; exact (proj1 (types_ready t1 U1 S1) _ _ T Lc)|]. split.
    + eapply ready_s_shape; [apply shape_sym; exact (shape_trans _ _ _ E1 E2)|]. apply IHb; auto. eapply fns_shape; [exact (shape_trans _ _ _ E1 E2)|exact Fb].
    + eapply ready_s_shape; [apply shape_sym; exact E1|]. apply IHs; auto. eapply fns_shape; eauto.
  - intros t n e te g _ T _ U S L _. exact (proj1 (types_ready t U S) _ _ T L).
  - intros t s ss ts tss t1 t' Ws IHs Wl IHl U S (Ls & Ll) F. cbn [flat_map] in F. apply Forall_app in F as (Fs & Fl).
    pose proof (typed_shape _ _ _ _ U Ws) as E. split; [auto|].
    assert (X : ready_ss t1 tss) by (apply IHl; [eapply shape_unique; eauto|eapply small_shape; eauto|exact Ll|eapply fns_shape; eauto]).
    clear - X E. induction tss as [|x l IH]; [exact I|]. destruct X as (A & B). split; [eapply ready_s_shape; [apply shape_sym; exact E|exact A]|auto].
Qed.
