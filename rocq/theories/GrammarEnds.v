(** * No phrase of the grammar ends with the end-of-file token *)
From Verif Require Import Base Token Lexer Values Syntax Symbols Parser Grammar GrammarProofs GrammarSound GrammarStmt GrammarStmtSound.
Local Open Scope nat_scope.

Definition lne (a : list token) : Prop := forall b t, a = b ++ [t] -> tk t <> TEOF.
Lemma lne_nil : lne [].
Proof. intros [] ? H; discriminate. Qed.
Lemma lne_cons_r t a : a <> [] -> lne a -> lne (t :: a).
Proof. intros N L b u E. destruct b as [|v b]; cbn in E; injection E; intros; [congruence|]. eapply L; eauto. Qed.
Lemma lne_app_r a b : b <> [] -> lne b -> lne (a ++ b).
Proof. intros N L. induction a as [|t a IH]; auto. cbn. apply lne_cons_r; auto. destruct a; [auto|discriminate]. Qed.
Lemma lne_app a b : lne a -> lne b -> lne (a ++ b).
Proof. intros A B. destruct b; [rewrite app_nil_r; auto|]. apply lne_app_r; auto; discriminate. Qed.
Lemma lne_one t : tk t <> TEOF -> lne [t].
Proof. intros K b u E. destruct b as [|? []]; cbn in E; try discriminate. injection E as <-. auto. Qed.
Lemma lne_cons t a : tk t <> TEOF -> lne a -> lne (t :: a).
Proof. intros K L. change (t :: a) with ([t] ++ a). apply lne_app; auto. apply lne_one; auto. Qed.

Ltac kt := match goal with H : tk ?t = _ |- tk ?t <> TEOF => rewrite H; (discriminate || (match goal with |- bop_token ?o <> _ => destruct o; discriminate end)) end.
Ltac lx := repeat first [assumption | apply lne_nil | apply lne_one; kt | apply lne_cons; [kt|] | apply lne_app
  | apply lne_cons_r; [discriminate|] ].
Lemma lne_type T a g T' : spells_type T a g T' -> lne a.
Proof. intros H. destruct H; lx. Qed.
Lemma lne_name f ns : spells_name f ns -> lne f.
Proof. intros H. destruct H; lx. Qed.
Lemma lne_spells : (forall p T a e T', spells p T a e T' -> lne a) /\ (forall T a es T', spells_args T a es T' -> lne a) /\ (forall T a ns es T', spells_inits T a ns es T' -> lne a).
Proof.
  apply spells_ind3; intros; try (match goal with H : spells_name _ _ |- _ => pose proof (lne_name _ _ H) end); try (match goal with H : spells_type _ _ _ _ |- _ => pose proof (lne_type _ _ _ _ H) end); lx.
Qed.
Lemma lne_expr p T a e T' : spells p T a e T' -> lne a.
Proof. apply (proj1 lne_spells). Qed.
Lemma lne_params T a ps T' : spells_params T a ps T' -> lne a.
Proof. induction 1; try (match goal with H : spells_type _ _ _ _ |- _ => pose proof (lne_type _ _ _ _ H) end); lx. Qed.
Lemma lne_result T a g T' : spells_result T a g T' -> lne a.
Proof. intros H. destruct H; try (match goal with H : spells_type _ _ _ _ |- _ => pose proof (lne_type _ _ _ _ H) end); lx. Qed.
Lemma lne_use a xs : spells_use_args a xs -> lne a.
Proof. induction 1 as [|t x c b xs Kt Lt Sc Sb IH]; lx. destruct Sc as [->|(m & -> & Km)]; lx. Qed.
Lemma lne_as a x y : spells_as a x y -> lne a.
Proof. intros H. destruct H; lx. Qed.
Lemma lne_head T a e T' k : head_of T a e T' k -> lne a /\ a <> [].
Proof. intros (H & _). split; [eapply lne_expr; eauto|eapply sp_nonempty; eauto]. Qed.
Lemma lne_sentences : (forall T a x st T', sentence T a x st T' -> lne a) /\ (forall T a x ss T', sentences T a x ss T' -> lne a).
Proof.
  apply sentence_ind2; intros;
    repeat (match goal with
      | H : spells _ _ ?a _ _ |- _ => lazymatch goal with _ : lne a, _ : a <> [] |- _ => fail | _ => pose proof (lne_expr _ _ _ _ _ H); pose proof (sp_nonempty _ _ _ _ _ H) end
      | H : spells_type _ ?a _ _ |- _ => lazymatch goal with _ : lne a |- _ => fail | _ => pose proof (lne_type _ _ _ _ H) end
      | H : spells_params _ ?a _ _ |- _ => lazymatch goal with _ : lne a |- _ => fail | _ => pose proof (lne_params _ _ _ _ H) end
      | H : spells_result _ ?a _ _ |- _ => lazymatch goal with _ : lne a |- _ => fail | _ => pose proof (lne_result _ _ _ _ H) end
      | H : spells_use_args ?a _ |- _ => lazymatch goal with _ : lne a |- _ => fail | _ => pose proof (lne_use _ _ H) end
      | H : spells_as ?a _ _ |- _ => lazymatch goal with _ : lne a |- _ => fail | _ => pose proof (lne_as _ _ _ H) end
      | H : head_of _ ?a _ _ _ |- _ => lazymatch goal with _ : lne a |- _ => fail | _ => destruct (lne_head _ _ _ _ _ H) end end); try (lx; fail).
  (* an assignment: the operator may be any token, but an expression follows *)
  apply lne_app_r; [discriminate|]. apply lne_cons_r; auto.
Qed.
Lemma lne_fields id T a T' : spells_fields id T a T' -> lne a.
Proof. induction 1; try (match goal with H : spells_type _ _ _ _ |- _ => pose proof (lne_type _ _ _ _ H) end); lx. Qed.
Lemma lne_program T a x ss T' : program T a x ss T' -> lne a.
Proof.
  induction 1; lx.
  - match goal with H : spells_struct _ _ _ |- _ => inversion H; subst end. match goal with H : spells_fields _ _ _ _ |- _ => pose proof (lne_fields _ _ _ _ H) end. lx.
  - match goal with H : sentence _ _ _ _ _ |- _ => exact (proj1 lne_sentences _ _ _ _ _ H) end.
Qed.
