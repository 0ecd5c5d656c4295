(** * Two facts about what the grammar spells: every variable it declares is the
    target of an assignment, and literals are those of the tokens *)
From Verif Require Import Base Token Lexer Values Strings Syntax Symbols Parser Grammar GrammarStmt.
From Verif Require Import TypingStmt Typing AcceptStmt AcceptReady.
Local Open Scope nat_scope.

Definition vars_of (id : nat) (b : symbody) : list vref :=
  match b with
  | SyGlobal _ _ _ => [RGlobal id]
  | SyFunc _ _ locals _ => map (RLocal id) (seq 0 (length locals))
  | _ => []
  end.
Definition vars (t : tbl) : list vref := flat_map (fun y => vars_of (sy_id y) (sy_body y)) (tb_syms t).

Fixpoint utargets (s : stmt) : list vref :=
  match s with
  | SAsg _ DECLARE (EId _ (Some v)) _ => [v]
  | SAsg _ EQUAL (EId _ (Some v)) _ => [v]
  | SBlock _ ss => flat_map utargets ss
  | SProc _ _ b => utargets b
  | SIf _ _ a b => utargets a ++ match b with Some b' => utargets b' | None => [] end
  | SWhile _ _ b => utargets b
  | SFor _ i _ st b => utargets i ++ utargets st ++ utargets b
  | _ => []
  end.

(** ** Steps that declare nothing *)
Definition quiet (T T' : tbl) : Prop := incl (vars T') (vars T).
Lemma quiet_refl T : quiet T T.
Proof. apply incl_refl. Qed.
Lemma quiet_trans a b c : quiet a b -> quiet b c -> quiet a c.
Proof. intros A B. eapply incl_tran; eauto. Qed.
Lemma quiet_syms T T' : tb_syms T' = tb_syms T -> quiet T T'.
Proof. unfold quiet, vars. intros ->. apply incl_refl. Qed.

Lemma vars_put t id b v : In v (vars (put_body t id b)) -> In v (vars t) \/ In v (vars_of id b).
Proof.
  unfold vars, put_body. cbn [set_syms tb_syms]. intros I. apply in_flat_map in I as (y & I & J). apply in_map_iff in I as (z & <- & I).
  destruct (Nat.eqb_spec (sy_id z) id); [right; exact J|]. left. apply in_flat_map. eauto.
Qed.
Lemma vars_at t id y v : sym_at t id = Some y -> In v (vars_of id (sy_body y)) -> In v (vars t).
Proof. intros Y I. apply find_some in Y as (J & E). apply Nat.eqb_eq in E. subst id. apply in_flat_map. eauto. Qed.
Lemma quiet_put t id y b : sym_at t id = Some y -> incl (vars_of id b) (vars_of id (sy_body y)) -> quiet t (put_body t id b).
Proof. intros Y I v J. apply vars_put in J as [J|J]; [exact J|]. eapply vars_at; [exact Y|]. apply I. exact J. Qed.
Lemma vars_new t name b id t1 : new_sym t name b = (id, t1) -> forall v, In v (vars t1) -> In v (vars t) \/ In v (vars_of id b).
Proof.
  unfold new_sym. intros [= <- <-] v I. unfold vars in I. cbn [tb_syms] in I. rewrite flat_map_app in I. apply in_app_iff in I as [I|I]; [left; exact I|].
  cbn in I. rewrite app_nil_r in I. right. exact I.
Qed.

Lemma q_intern x T i T' : intern x T = COk i T' -> quiet T T'.
Proof. unfold intern. destruct (register_string _ _) as [[tab j]| | |]; try discriminate. intros [= _ <-]. apply quiet_syms. reflexivity. Qed.
Lemma q_ref x T r T' : reference_variable x T = COk r T' -> T' = T.
Proof.
  unfold reference_variable. destruct (tb_func T) as [f|]; [|intros [= _ <-]; reflexivity].
  destruct (sym_at T f) as [[? ? []]|]; try discriminate. destruct (find_index _ _ _); [intros [= _ <-]; reflexivity|].
  destruct (find_index _ _ _); intros [= _ <-]; reflexivity.
Qed.
Lemma q_struct x b T id T' : declare_struct x b T = COk id T' -> quiet T T'.
Proof.
  unfold declare_struct. destruct (if b then _ else _); [intros [= _ <-]; apply quiet_refl|].
  destruct (new_sym _ _ _) as [i t1] eqn:N. intros [= _ <-] v I. apply (vars_new _ _ _ _ _ N) in I as [I|[]]. exact I.
Qed.
Lemma q_name x T g T' : tag_from_name x T = COk g T' -> quiet T T'.
Proof.
  unfold tag_from_name. destruct (prim_tag x); [intros [= _ <-]; apply quiet_refl|]. destruct (find _ _); [intros [= _ <-]; apply quiet_refl|].
  destruct (declare_struct x false T) as [id t1| | | | |] eqn:D; try discriminate. intros [= _ <-]. eapply q_struct; eauto.
Qed.
Lemma q_nullable g T g' T' : get_nullable g T = COk g' T' -> quiet T T'.
Proof.
  unfold get_nullable. destruct (find _ _); [intros [= _ <-]; apply quiet_refl|]. destruct (tag_name T g); [|discriminate].
  destruct (new_sym _ _ _) as [i t1] eqn:N. intros [= _ <-] v I. apply (vars_new _ _ _ _ _ N) in I as [I|[]]. exact I.
Qed.
Lemma q_type T a g T' : spells_type T a g T' -> quiet T T'.
Proof. intros []; [eapply q_name; eauto|]. eapply quiet_trans; [eapply q_name; eauto|eapply q_nullable; eauto]. Qed.
Lemma q_spells : 
  (forall p T a e T', spells p T a e T' -> quiet T T') /\
  (forall T a es T', spells_args T a es T' -> quiet T T') /\
  (forall T a ns es T', spells_inits T a ns es T' -> quiet T T').
Proof.
  apply spells_ind3; intros; try apply quiet_refl; eauto using quiet_trans, q_intern, q_struct, q_type.
  match goal with H : reference_variable _ _ = COk _ _ |- _ => apply q_ref in H as -> end. apply quiet_refl.
Qed.
Lemma q_expr p T a e T' : spells p T a e T' -> quiet T T'.
Proof. apply q_spells. Qed.
Lemma q_params T a ps T' : spells_params T a ps T' -> quiet T T'.
Proof. induction 1; eauto using quiet_refl, quiet_trans, q_type. Qed.
Lemma q_argument n x g T u T' : declare_argument n x g T = COk u T' -> quiet T T'.
Proof.
  unfold declare_argument. destruct (tb_func T) as [f|]; [|discriminate]. destruct (sym_at T f) as [[yi yn []]|] eqn:Y; try discriminate.
  destruct (find_index _ _ _); [discriminate|]. intros [= _ <-]. eapply quiet_put; [exact Y|]. apply incl_refl.
Qed.
Lemma q_declares_params n T ps T' : declares_params n T ps T' -> quiet T T'.
Proof. induction 1; eauto using quiet_refl, quiet_trans, q_argument. Qed.
Lemma q_result T a g T' : spells_result T a g T' -> quiet T T'.
Proof. intros []; eauto using quiet_refl, q_type. Qed.
Lemma q_close T u T' : close_scope T = COk u T' -> quiet T T'.
Proof.
  unfold close_scope. destruct (tb_func T) as [f|]; [|intros [= _ <-]; apply quiet_syms; reflexivity].
  destruct (sym_at T f) as [[yi yn []]|] eqn:Y; try discriminate. intros [= _ <-].
  eapply quiet_trans; [|apply quiet_syms; reflexivity]. eapply quiet_put; [exact Y|]. cbn [vars_of sy_body]. rewrite map_length. apply incl_refl.
Qed.
Lemma q_ret id g T u T' : set_ret id g T = COk u T' -> quiet T T'.
Proof.
  unfold set_ret. destruct (sym_at T id) as [[yi yn []]|] eqn:Y; try discriminate. intros [= _ <-]. eapply quiet_put; [exact Y|]. apply incl_refl.
Qed.
Lemma q_function x T id T' : declare_function x T = COk id T' -> quiet T T'.
Proof. unfold declare_function. destruct (new_sym _ _ _) as [i t1] eqn:N. intros [= _ <-] v I. apply (vars_new _ _ _ _ _ N) in I as [I|[]]. exact I. Qed.
Lemma q_tag v g T u T' : set_var_tag v g T = COk u T' -> quiet T T'.
Proof.
  unfold set_var_tag, put_var. destruct v as [id|id|f i|f i]; try discriminate.
  - destruct (sym_at T id) as [[yi yn []]|] eqn:Y; try discriminate. intros [= _ <-]. eapply quiet_put; [exact Y|]. apply incl_refl.
  - destruct (sym_at T f) as [[yi yn []]|] eqn:Y; try discriminate. destruct (nth_error _ _); [|discriminate]. intros [= _ <-].
    eapply quiet_put; [exact Y|]. cbn [vars_of sy_body]. rewrite update_length. apply incl_refl.
  - destruct (sym_at T f) as [[yi yn []]|] eqn:Y; try discriminate. destruct (nth_error _ _); [|discriminate]. intros [= _ <-].
    eapply quiet_put; [exact Y|]. apply incl_refl.
Qed.
Lemma q_const x k T u T' : declare_const x k T = COk u T' -> quiet T T'.
Proof.
  unfold declare_const, cbind. destruct (reference_variable x T) as [r t1| | | | |] eqn:R; try discriminate. apply q_ref in R as ->.
  destruct r; [discriminate|]. destruct (new_sym T x (SyConst k)) as [i t1] eqn:N. intros [= _ <-] v I. apply (vars_new _ _ _ _ _ N) in I as [I|[]]. exact I.
Qed.
Lemma declares_var T x v T' : declares T x v T' -> forall w, In w (vars T') -> In w (vars T) \/ w = v.
Proof.
  unfold declares. destruct (tb_func T) as [f|] eqn:C.
  - unfold declare_local. rewrite C. destruct (sym_at T f) as [[yi yn []]|] eqn:Y; try discriminate. destruct (find_index _ _ _); [discriminate|]. intros [= <- <-] w I.
    apply vars_put in I as [I|I]; [auto|]. cbn [vars_of] in I. rewrite app_length in I. cbn [length] in I. rewrite seq_app, map_app in I. apply in_app_iff in I as [I|I].
    + left. eapply vars_at; [exact Y|]. exact I.
    + cbn in I. destruct I as [<-|[]]. auto.
  - unfold declare_global, cbind. destruct (reference_variable x T) as [r t1| | | | |] eqn:R; try discriminate. apply q_ref in R as ->.
    set (k := fun t => _). assert (K : forall v T', k T = COk v T' -> forall w, In w (vars T') -> In w (vars T) \/ w = v).
    { unfold k. clear v T'. intros v T'. destruct (new_sym _ _ _) as [i t1] eqn:N. intros [= <- <-] w I.
      assert (I' : In w (vars t1)) by exact I. apply (vars_new _ _ _ _ _ N) in I' as [I'|[<-|[]]]; auto. }
    destruct r as [[]|]; try discriminate; apply K.
Qed.

(** ** Every variable is the target of its declaration *)
Definition covers (T T' : tbl) (l : list vref) : Prop := forall v, In v (vars T') -> In v (vars T) \/ In v l.
Lemma covers_quiet T1 T2 T3 T4 l : quiet T1 T2 -> covers T2 T3 l -> quiet T3 T4 -> covers T1 T4 l.
Proof. intros A B C v I. apply C in I. apply B in I as [I|I]; auto. Qed.
Lemma covers_app T T1 T2 l l' : covers T T1 l -> covers T1 T2 l' -> covers T T2 (l ++ l').
Proof. intros A B v I. rewrite in_app_iff. apply B in I as [I|I]; auto. apply A in I as [I|I]; auto. Qed.
Lemma covers_refl T T' l : quiet T T' -> covers T T' l.
Proof. intros A v I. left. apply A. exact I. Qed.

Lemma declared_assigned :
  (forall T a x st T', sentence T a x st T' -> covers T T' (utargets st)) /\
  (forall T a x ss T', sentences T a x ss T' -> covers T T' (flat_map utargets ss)).
Proof.
  apply sentence_ind2; intros; cbn [utargets flat_map]; rewrite ?app_nil_r;
    repeat match goal with
    | H : spells _ _ _ _ _ |- _ => apply q_expr in H
    | H : head_of _ _ _ _ _ |- _ => destruct H as (H & _); apply q_expr in H
    | H : close_scope _ = COk _ _ |- _ => apply q_close in H
    end; try (apply covers_refl; assumption).
  - eapply covers_quiet; [|eassumption|eassumption]. apply quiet_syms. reflexivity.
  - eapply covers_quiet; [|eassumption|eapply quiet_trans; [eassumption|apply quiet_syms; reflexivity]].
    eapply quiet_trans; [eapply q_function; eauto|]. eapply quiet_trans; [apply (quiet_syms _ (set_func T1 (Some id))); reflexivity|].
    eapply quiet_trans; [eapply q_params; eauto|]. eapply quiet_trans; [eapply q_declares_params; eauto|].
    eapply quiet_trans; [eapply q_result; eauto|]. eapply quiet_trans; [eapply q_ret; eauto|]. apply quiet_syms. reflexivity.
  - eapply covers_quiet; [eassumption|eassumption|apply quiet_refl].
  - eapply covers_app; [|eassumption]. eapply covers_quiet; [eassumption|eassumption|apply quiet_refl].
  - eapply covers_quiet; [|eassumption|eassumption]. eapply quiet_trans; [eassumption|]. apply quiet_syms. reflexivity.
  - eapply covers_app; [eapply covers_quiet; [|eassumption|eassumption]; apply quiet_syms; reflexivity|].
    eapply covers_app; [eassumption|]. eapply covers_quiet; [apply quiet_refl|eassumption|eassumption].
  - apply covers_refl. apply quiet_refl.
  - apply covers_refl. apply quiet_refl.
  - apply covers_refl. apply quiet_refl.
  - apply covers_refl. apply quiet_refl.
  - intros w I. apply H4 in I. eapply declares_var in I; [|eassumption]. destruct I; [auto|]. subst. right. left. reflexivity.
  - intros w I. eapply q_tag in H5. apply H7, H5 in I. apply q_type in H4. apply H4 in I. eapply declares_var in I; [|eassumption]. destruct I; [auto|]. subst. right. left. reflexivity.
  - apply covers_refl. eapply quiet_trans; [eassumption|]. eapply quiet_trans; [eassumption|]. eapply q_const; eauto.
  - apply covers_refl. eapply quiet_trans; eassumption.
  - apply covers_refl. apply quiet_refl.
  - eapply covers_app; eassumption.
Qed.

Lemma q_fields id T a T' : spells_fields id T a T' -> quiet T T'.
Proof.
  induction 1 as [|T t x c a g T1 nm d fs b T' nm' d' fs' _ _ _ Y _ _ Ty Y' _ IH]; [apply quiet_refl|].
  eapply quiet_trans; [eapply q_type; eauto|]. eapply quiet_trans; [|exact IH]. eapply quiet_put; [exact Y'|]. apply incl_refl.
Qed.
Lemma q_spells_struct T a T' : spells_struct T a T' -> quiet T T'.
Proof.
  intros []. eapply quiet_trans; [eapply q_struct; eauto|]. eapply quiet_trans; [|eapply q_fields; eauto].
  eapply quiet_put; [eassumption|]. apply incl_refl.
Qed.
Theorem program_assigned T a x ss T' : program T a x ss T' -> covers T T' (flat_map utargets ss).
Proof.
  induction 1 as [T x K|T a T1 b x ss T' S P IH|T a st T1 b x ss T' S P IH].
  - apply covers_refl. apply quiet_refl.
  - eapply covers_quiet; [eapply q_spells_struct; eauto|exact IH|apply quiet_refl].
  - cbn [flat_map]. eapply covers_app; [|exact IH]. apply declared_assigned in S. exact S.
Qed.

(** ** Literals *)
Definition plain (t : token) : Prop := tk t = INT -> tk_i t <> (- 2^31)%Z.
Ltac plains := repeat match goal with
  | H : Forall plain (_ ++ _) |- _ => apply Forall_app in H as (? & ?)
  | H : Forall plain (_ :: _) |- _ => apply Forall_cons_iff in H as (? & ?)
  end.
Lemma spells_lit :
  (forall p T a e T', spells p T a e T' -> Forall plain a -> lit_e e) /\
  (forall T a es T', spells_args T a es T' -> Forall plain a -> lits es) /\
  (forall T a ns es T', spells_inits T a ns es T' -> Forall plain a -> lits es).
Proof.
  apply spells_ind3; intros; cbn [lits]; plains; try exact I; try (cbn [lit_e]; auto; fail).
  - apply lit_call. auto.
  - apply lit_new. auto.
  - apply lit_call. cbn [lits]. auto.
Qed.
Lemma expr_lit p T a e T' : spells p T a e T' -> Forall plain a -> lit_e e.
Proof. apply spells_lit. Qed.
Lemma sentence_lit :
  (forall T a x st T', sentence T a x st T' -> Forall plain a -> lit_s st) /\
  (forall T a x ss T', sentences T a x ss T' -> Forall plain a -> lit_ss ss).
Proof.
  apply sentence_ind2; intros; cbn [lit_ss]; plains; try exact I;
    repeat match goal with
    | H : head_of _ _ _ _ _ |- _ => destruct H as (H & _)
    | H : spells _ _ ?a _ _, F : Forall plain ?a |- _ => apply expr_lit in H; [|exact F]
    end; try (cbn [lit_s lit_e]; auto; fail).
  - apply lit_block. auto.
Qed.
Lemma program_lit T a x ss T' : program T a x ss T' -> Forall plain a -> lit_ss ss.
Proof.
  induction 1 as [T x K|T a T1 b x ss T' S P IH|T a st T1 b x ss T' S P IH]; intros F; plains; [exact I|auto|].
  split; [|auto]. apply sentence_lit in S; auto.
Qed.

(** ** What is a target before type resolution is assigned after it *)
Lemma targets_assigned :
  (forall t s ts t', well_typed t s ts t' -> incl (utargets s) (assigned ts)) /\
  (forall t ss tss t', all_typed t ss tss t' -> incl (flat_map utargets ss) (flat_map assigned tss)).
Proof.
  apply typed_ind2; intros; cbn [utargets assigned flat_map]; rewrite ?app_nil_r; eauto using incl_app_app, incl_refl, incl_nil_l.
  - destruct op; try apply incl_nil_l; destruct l; try apply incl_nil_l; match goal with |- incl (match ?o with Some _ => _ | None => _ end) _ => destruct o end; try apply incl_nil_l; inversion H0; subst; apply incl_refl.
  - destruct op; try apply incl_nil_l; exfalso; apply H; cbn; auto.
Qed.
