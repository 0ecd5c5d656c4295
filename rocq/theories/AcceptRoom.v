(** * Only string literals take room in the string table *)
From Verif Require Import Base Token Lexer Values Strings Syntax Symbols Parser Grammar GrammarStmt Props_Parser AcceptGrammar.
Local Open Scope nat_scope.

Notation strings T := (tb_strings T).
Definition takes_room (T : tbl) (a : list token) (T' : tbl) : Prop := length (strings T') <= length (strings T) + literals a.

Lemma literals_app a b : literals (a ++ b) = literals a + literals b.
Proof. unfold literals. rewrite filter_app, app_length. reflexivity. Qed.
Lemma literals_cons t a : literals (t :: a) = literals [t] + literals a.
Proof. apply (literals_app [t] a). Qed.

Lemma same_struct x b T id T' : declare_struct x b T = COk id T' -> strings T' = strings T.
Proof. unfold declare_struct. destruct (if b then _ else _); [|unfold new_sym]; intros [= _ <-]; reflexivity. Qed.
Lemma same_name x T g T' : tag_from_name x T = COk g T' -> strings T' = strings T.
Proof.
  unfold tag_from_name. destruct (prim_tag x); [intros [= _ <-]; reflexivity|]. destruct (find _ _); [intros [= _ <-]; reflexivity|].
  destruct (declare_struct x false T) as [id t1| | | | |] eqn:D; try discriminate. intros [= _ <-]. eapply same_struct; eauto.
Qed.
Lemma same_nullable g T g' T' : get_nullable g T = COk g' T' -> strings T' = strings T.
Proof.
  unfold get_nullable. destruct (find _ _); [intros [= _ <-]; reflexivity|]. destruct (tag_name T g); [|discriminate].
  unfold new_sym. intros [= _ <-]. reflexivity.
Qed.
Lemma same_type T a g T' : spells_type T a g T' -> strings T' = strings T.
Proof. intros []; [eapply same_name; eauto|]. erewrite same_nullable by eassumption. eapply same_name; eauto. Qed.
Lemma same_params T a ps T' : spells_params T a ps T' -> strings T' = strings T.
Proof. induction 1; try rewrite IHspells_params; eauto using same_type. Qed.
Lemma same_argument n x g T u T' : declare_argument n x g T = COk u T' -> strings T' = strings T.
Proof.
  unfold declare_argument. destruct (tb_func T) as [f|]; [|discriminate]. destruct (sym_at T f) as [[yi yn []]|] eqn:Y; try discriminate.
  destruct (find_index _ _ _); [discriminate|]. intros [= _ <-]. reflexivity.
Qed.
Lemma same_declares_params n T ps T' : declares_params n T ps T' -> strings T' = strings T.
Proof. induction 1; [reflexivity|]. rewrite IHdeclares_params. eapply same_argument; eauto. Qed.
Lemma same_result T a g T' : spells_result T a g T' -> strings T' = strings T.
Proof. intros []; eauto using same_type. Qed.
Lemma same_close T u T' : close_scope T = COk u T' -> strings T' = strings T.
Proof.
  unfold close_scope. destruct (tb_func T) as [f|]; [|intros [= _ <-]; reflexivity].
  destruct (sym_at T f) as [[yi yn []]|] eqn:Y; try discriminate. intros [= _ <-]. reflexivity.
Qed.
Lemma same_ret id g T u T' : set_ret id g T = COk u T' -> strings T' = strings T.
Proof. unfold set_ret. destruct (sym_at T id) as [[yi yn []]|] eqn:Y; try discriminate. intros [= _ <-]. reflexivity. Qed.
Lemma same_function x T id T' : declare_function x T = COk id T' -> strings T' = strings T.
Proof. unfold declare_function, new_sym. intros [= _ <-]. reflexivity. Qed.
Lemma same_tag v g T u T' : set_var_tag v g T = COk u T' -> strings T' = strings T.
Proof.
  unfold set_var_tag, put_var. destruct v as [id|id|f i|f i]; try discriminate;
    (destruct (sym_at T _) as [[yi yn []]|] eqn:Y; try discriminate); try (destruct (nth_error _ _); [|discriminate]); intros [= _ <-]; reflexivity.
Qed.
Lemma same_const x k T u T' : declare_const x k T = COk u T' -> strings T' = strings T.
Proof.
  unfold declare_const, cbind. destruct (reference_variable x T) as [r t1| | | | |] eqn:R; try discriminate. apply q_ref in R as ->.
  destruct r; [discriminate|]. unfold new_sym. intros [= _ <-]. reflexivity.
Qed.
Lemma same_declares T x v T' : declares T x v T' -> strings T' = strings T.
Proof.
  unfold declares. destruct (tb_func T) as [f|] eqn:C.
  - unfold declare_local. rewrite C. destruct (sym_at T f) as [[yi yn []]|] eqn:Y; try discriminate. destruct (find_index _ _ _); [discriminate|].
    intros [= <- <-]. reflexivity.
  - unfold declare_global, cbind. destruct (reference_variable x T) as [r t1| | | | |] eqn:R; try discriminate. apply q_ref in R as ->.
    destruct r as [[]|]; try discriminate; unfold new_sym; intros [= <- <-]; reflexivity.
Qed.
Lemma room_intern x T i T' : intern x T = COk i T' -> length (strings T') <= S (length (strings T)).
Proof.
  unfold intern, register_string, oassert. destruct (find_string _ _ _) as [j|]; [intros [= _ <-]; cbn; lia|].
  destruct (_ <? _); [|discriminate]. intros [= _ <-]. cbn. rewrite app_length. cbn. lia.
Qed.

Ltac same := repeat match goal with
  | H : spells_type _ _ _ _ |- _ => apply same_type in H
  | H : declare_struct _ _ _ = COk _ _ |- _ => apply same_struct in H
  | H : reference_variable _ _ = COk _ _ |- _ => apply q_ref in H
  | H : declare_function _ _ = COk _ _ |- _ => apply same_function in H
  | H : spells_params _ _ _ _ |- _ => apply same_params in H
  | H : declares_params _ _ _ _ |- _ => apply same_declares_params in H
  | H : spells_result _ _ _ _ |- _ => apply same_result in H
  | H : set_ret _ _ _ = COk _ _ |- _ => apply same_ret in H
  | H : close_scope _ = COk _ _ |- _ => apply same_close in H
  | H : declares _ _ _ _ |- _ => apply same_declares in H
  | H : set_var_tag _ _ _ = COk _ _ |- _ => apply same_tag in H
  | H : declare_const _ _ _ = COk _ _ |- _ => apply same_const in H
  | H : strings _ = strings _ |- _ => apply (f_equal (@length text)) in H
  end.
Ltac lits := repeat match goal with
  | |- context [literals (?t :: ?a)] => first [constr_eq a (@nil token); fail 1 | rewrite (literals_cons t a)]
  | |- context [literals (?a ++ ?b)] => rewrite (literals_app a b)
  | H : context [literals (?t :: ?a)] |- _ => first [constr_eq a (@nil token); fail 1 | rewrite (literals_cons t a) in H]
  end.
Lemma room_spells :
  (forall p T a e T', spells p T a e T' -> takes_room T a T') /\
  (forall T a es T', spells_args T a es T' -> takes_room T a T') /\
  (forall T a ns es T', spells_inits T a ns es T' -> takes_room T a T').
Proof.
  unfold takes_room. apply spells_ind3; intros; same; subst; lits; try lia.
  - apply room_intern in H1. unfold literals. cbn. rewrite H. cbn. lia.
Qed.
Lemma room_expr p T a e T' : spells p T a e T' -> takes_room T a T'.
Proof. apply room_spells. Qed.
Lemma room_sentence :
  (forall T a x st T', sentence T a x st T' -> takes_room T a T') /\
  (forall T a x ss T', sentences T a x ss T' -> takes_room T a T').
Proof.
  unfold takes_room. apply sentence_ind2; intros; same; subst;
  repeat match goal with
    | H : head_of _ _ _ _ _ |- _ => destruct H as (H & _)
    | H : spells _ _ ?a _ _ |- _ => apply room_expr in H; unfold takes_room in H
    end; lits; try change (tb_strings (open_scope T)) with (tb_strings T) in *; try change (tb_strings (open_scope T1)) with (tb_strings T1) in *; try change (tb_strings (open_scope T5)) with (tb_strings T5) in *; cbn [set_func tb_strings] in *; try lia.
Qed.
Lemma same_fields id T a T' : spells_fields id T a T' -> strings T' = strings T.
Proof. induction 1; [reflexivity|]. rewrite IHspells_fields. cbn [put_body set_syms tb_strings]. eapply same_type; eauto. Qed.
Theorem room_program T a x ss T' : program T a x ss T' -> takes_room T a T'.
Proof.
  unfold takes_room. induction 1 as [T x K|T a T1 b x ss T' S P IH|T a st T1 b x ss T' S P IH]; lits; [lia| |].
  - enough (strings T1 = strings T) as E by (rewrite E in IH; lia). destruct S as [? ? ? ? ? ? ? ? ? ? ? ? ? ? ? ? _ _ _ _ D _ _ F _ _]. apply same_struct in D. apply same_fields in F. cbn [put_body set_syms tb_strings] in F. congruence.
  - apply room_sentence in S. unfold takes_room in S. lia.
Qed.
