(** * Host operations keep the invariants of the symbol table *)
From Verif Require Import Base Token Lexer Values Strings Code FileLine Syntax Symbols Parser Resolve Compile
  Layout CompileProofs TableInv ParserInv Host.
Local Open Scope nat_scope.

Lemma register_type_grew name t u t' : register_type name t = COk u t' -> good full t -> nofuns t t'.
Proof.
  intros E G. unfold register_type in E. destruct (prim_tag name); [injection E as _ <-; apply grew_refl|].
  destruct (find _ _) as [y|] eqn:Y.
  - assert (Y' : sym_at t (sy_id y) = Some y) by (apply find_some in Y as (I & _); apply in_sym_at; auto; apply G).
    destruct y as [id n b]. destruct b; try (injection E as _ <-; apply grew_refl).
    destruct defined; injection E as _ <-; [apply grew_refl|].
    eapply put_grew; [exact Y'|reflexivity|intros _; exact I|right; left; reflexivity].
  - injection E as _ <-. apply quiet_grew, new_quiet; [reflexivity|exact I].
Qed.

Lemma bind_function_grew name args va ret c t u t' : bind_function name args va ret c t = COk u t' -> nofuns t t'.
Proof.
  unfold bind_function. destruct (find _ _); try discriminate.
  destruct (new_sym t name (SyForeign (tb_nforeign t) args va ret c)) eqn:E. intros [= _ <-].
  unfold new_sym in E. injection E as <- <-.
  eapply new_grew with (b := SyForeign (tb_nforeign t) args va ret c) (name := name); try reflexivity.
  - intros []; cbn; lia.
  - intros k i [= <- <-]. reflexivity.
Qed.

Lemma qm_sig_args cur n : qm cur (fun _ => True) (sig_args n).
Proof.
  induction n as [|n IH]; [apply qm_fuel|]. cbn [sig_args].
  eapply qm_bind; [apply qm_last|]. intros k _. destruct k; try apply qm_abort;
    first [apply qm_ret; exact I
          |eapply qm_bind; [apply qm_type|]; intros; eapply qm_bind; [exact IH|]; intros; apply qm_ret; exact I
          |eapply qm_bind; [apply qm_next|]; intros; first [exact IH|eapply qm_bind; [exact IH|]; intros; apply qm_ret; exact I]].
Qed.

Lemma bind_host_grew n sig c t u t' : bind_host n sig c t = COk u t' -> nofuns t t'.
Proof.
  unfold bind_host. destruct (bind_sig n c (start_parse t sig)) as [u0 p| | | | |] eqn:E; try discriminate. intros [= _ <-].
  assert (T : ps_tbl (start_parse t sig) = t) by (unfold start_parse; destruct (lex_all sig); reflexivity).
  assert (Bf : forall cur name args va ret, nf cur (fun _ : unit => True) (on_tbl (bind_function name args va ret c))).
  { intros. apply nf_tbl. intros x a x' _ E'. split; auto. eapply bind_function_grew; eauto. }
  assert (X : nf (tb_func t) (fun _ => True) (bind_sig n c)).
  { unfold bind_sig. set (cur := tb_func t).
    eapply nf_bind; [apply qm_nf, qm_next|]. intros _ _. eapply nf_bind; [apply qm_nf, qm_last|]. intros k _.
    destruct (negb (tok_eqb k IDENT)); [apply qm_nf, qm_abort|].
    eapply nf_bind; [apply qm_nf, qm_lexeme|]. intros nm _. eapply nf_bind; [apply qm_nf, qm_next|]. intros _ _.
    eapply nf_bind; [apply qm_nf, qm_last|]. intros k' _. destruct (negb (tok_eqb k' OPENPAREN)); [apply Bf|].
    eapply nf_bind; [apply qm_nf, qm_next|]. intros _ _. eapply nf_bind; [apply qm_nf, qm_sig_args|]. intros r _.
    eapply nf_bind; [apply qm_nf, qm_next|]. intros _ _. eapply nf_bind; [apply qm_nf, qm_last|]. intros k2 _.
    eapply nf_bind with (P := fun _ => True); [|intros ret _; apply Bf].
    destruct (tok_eqb k2 COLON); [|apply nf_ret; exact I].
    eapply nf_bind; [apply qm_nf, qm_next|]. intros _ _. eapply nf_bind; [apply qm_nf, qm_last|]. intros k3 _.
    destruct (tok_eqb k3 IDENT); [apply qm_nf, qm_type|apply qm_nf, qm_abort]. }
  rewrite <- T at 1. apply (proj1 (X _ _ _ ltac:(rewrite T; reflexivity) E)).
Qed.

Lemma bind_const_grew name c t u t' : bind_const name c t = COk u t' -> nofuns t t'.
Proof.
  destruct c; cbn [bind_const]; try apply declare_const_grew. intros E. inv_bind E.
  apply (grew_trans _ _ s0 _ [] []); [apply quiet_grew; eapply intern_quiet; eauto|eapply declare_const_grew; eauto].
Qed.

Lemma bind_macro_grew name t u t' : bind_macro name t = COk u t' -> nofuns t t'.
Proof.
  unfold bind_macro. destruct (existsb _ _); try discriminate. intros [= _ <-].
  apply quiet_grew, new_quiet; [reflexivity|exact I].
Qed.

(** A host operation only works on the table *)
Theorem host_inv n o s s' : host n o s = COk tt s' -> good full (k_tbl s) ->
  s' = set_tbl s (k_tbl s') /\ nofuns (k_tbl s) (k_tbl s').
Proof.
  unfold host, kon_tbl. intros E G. destruct (match o with HType _ => _ | _ => _ end (k_tbl s)) eqn:Em; try discriminate.
  injection E as _ <-. split; [reflexivity|]. cbn [k_tbl set_tbl]. destruct o.
  - eapply register_type_grew; eauto.
  - eapply bind_host_grew; eauto.
  - eapply bind_const_grew; eauto.
  - eapply bind_macro_grew; eauto.
Qed.
