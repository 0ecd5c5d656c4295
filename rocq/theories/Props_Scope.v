(** * C26: a name means its innermost visible declaration *)
From Verif Require Import Base Token Lexer Values Syntax Symbols Parser Compile TableInv Host Whole ScopeProofs Scope.
Local Open Scope nat_scope.

(** Whatever a host has compiled and bound before: when a source parses, every
    name in its statements refers to what Scope.v says it means where it stands,
    and the globals afterwards are those before with the ones the source
    declares. *)
Theorem names_resolved : forall s n src ss p, reachable s ->
  parse_program n (start_parse (k_tbl s) src) = COk ss p ->
  scoped_all (names_of (ps_tbl p)) (env_of (k_tbl s)) ss (env_of (ps_tbl p)).
Proof. intros s n src ss p R H. pose proof (reachable_loaded _ R) as L. eapply program_scoped; eauto; apply L. Qed.
Print Assumptions names_resolved.

(** ** What that entails *)
Scheme scoped_ind2 := Induction for scoped Sort Prop
  with scoped_all_ind2 := Induction for scoped_all Sort Prop.
Combined Scheme scoped_mut from scoped_ind2, scoped_all_ind2.

Definition grown (E E' : env) : Prop :=
  en_fun E' = en_fun E /\ en_params E' = en_params E /\
  (exists new, en_globals E' = en_globals E ++ new) /\
  (en_scopes E = [] -> en_scopes E' = []) /\
  (forall sc r, en_scopes E = sc :: r -> exists new, en_scopes E' = (sc ++ new) :: r).
Lemma grown_refl E : grown E E.
Proof. repeat split; auto; [exists []; rewrite app_nil_r; auto|]. intros sc r ->. exists []. rewrite app_nil_r. auto. Qed.
Lemma grown_trans a b c : grown a b -> grown b c -> grown a c.
Proof.
  intros (A & B & (g & C) & D & F) (A' & B' & (g' & C') & D' & F'). repeat split; try congruence; auto.
  - exists (g ++ g'). rewrite C', C, app_assoc. reflexivity.
  - intros sc r X. destruct (F _ _ X) as (n & Y). destruct (F' _ _ Y) as (n' & Z). exists (n ++ n'). rewrite Z, app_assoc. reflexivity.
Qed.
Lemma grown_local E x : grown E (add_local E x).
Proof. repeat split; cbn; [exists []; rewrite app_nil_r; auto|intros ->; auto|]. intros sc r ->. eauto. Qed.
Lemma grown_global E x r : grown E (add_global E x r).
Proof. repeat split; cbn; auto; [eauto|]. intros sc q ->. exists []. rewrite app_nil_r. auto. Qed.
Lemma grown_leave E E' : grown (enter E) E' -> grown E (leave E') /\ en_scopes (leave E') = en_scopes E.
Proof.
  intros (A & B & C & _ & F). destruct (F [] (en_scopes E) eq_refl) as (n & Y). cbn in *. rewrite Y. cbn [tl]. split; auto. repeat split; auto; cbn; rewrite Y; cbn; auto.
  intros sc r ->. exists []. rewrite app_nil_r. auto.
Qed.
Lemma scoped_grows params : (forall E s E', scoped params E s E' -> grown E E') /\ (forall E ss E', scoped_all params E ss E' -> grown E E').
Proof.
  apply scoped_mut; intros; try apply grown_refl; try apply grown_local; try apply grown_global; eauto using grown_trans.
  - apply grown_leave. auto.
  - destruct H as (_ & _ & C & _). repeat split; cbn; auto. intros sc r ->. exists []. rewrite app_nil_r. auto.
  - apply grown_leave. auto.
  - apply grown_leave. eauto using grown_trans.
Qed.

(** Environments in which no two visible locals share a name or a number, and
    the global names refer to globals and constants *)
Record clean (E : env) : Prop := {
  cl_names : NoDup (map fst (concat (en_scopes E)));
  cl_numbers : NoDup (map snd (concat (en_scopes E)));
  cl_count : Forall (fun p => snd p < en_count E) (concat (en_scopes E));
  cl_globals : Forall (fun p => match snd p with RGlobal _ | RConst _ => True | _ => False end) (en_globals E)
}.
Lemma clean_enter E : clean E -> clean (enter E).
Proof. intros [A B C D]. constructor; auto. Qed.
Lemma nodup_tail {A} (l k : list A) : NoDup (l ++ k) -> NoDup k.
Proof. induction l; auto. intros N. inversion N. auto. Qed.
Lemma clean_leave E : clean E -> clean (leave E).
Proof.
  intros [A B C D]. constructor; auto; cbn; destruct (en_scopes E) as [|sc r]; auto; cbn in *; rewrite ?map_app in *.
  - eapply nodup_tail; eauto.
  - eapply nodup_tail; eauto.
  - apply Forall_app in C. apply C.
Qed.
Lemma clean_local E x : clean E -> assoc x (concat (en_scopes E)) = None -> clean (add_local E x).
Proof.
  intros [A B C D] N. constructor; auto; cbn; destruct (en_scopes E) as [|sc r]; try constructor; cbn in *; rewrite <- ?app_assoc; cbn.
  - rewrite map_app in *. cbn. apply NoDup_Add with (a := x) (l := map fst sc ++ map fst (concat r)); [apply Add_app|]. split; auto. apply assoc_none in N. rewrite map_app in N. exact N.
  - rewrite map_app in *. cbn. apply NoDup_Add with (a := en_count E) (l := map snd sc ++ map snd (concat r)); [apply Add_app|]. split; auto.
    rewrite <- map_app. intros I. apply in_map_iff in I as (q & Eq & I). pose proof (proj1 (Forall_forall _ _) C q I). cbn in *. lia.
  - apply Forall_app in C as (C1 & C2). apply Forall_app. split; [eapply Forall_impl; [|exact C1]; cbn; lia|]. constructor; [cbn; lia|]. eapply Forall_impl; [|exact C2]. cbn. lia.
Qed.
Lemma clean_global E x r : clean E -> match r with RGlobal _ | RConst _ => True | _ => False end -> clean (add_global E x r).
Proof. intros [A B C D] N. constructor; auto. cbn. apply Forall_app. auto. Qed.

Theorem scopes_clean : forall params,
  (forall E s E', scoped params E s E' -> clean E -> clean E') /\ (forall E ss E', scoped_all params E ss E' -> clean E -> clean E').
Proof.
  intros params. apply scoped_mut; intros; auto using clean_local, clean_leave, clean_enter.
  - apply clean_global; cbn; auto.
  - apply clean_global; cbn; auto.
  - assert (X : clean E') by (apply H; constructor; cbn; try constructor; apply H0). destruct X as [_ _ _ D], H0 as [A' B' C' _]. constructor; auto.
  - auto 6 using clean_leave, clean_enter.
Qed.
Theorem reachable_clean : forall s, clean (env_of (k_tbl s)).
Proof.
  intros s. constructor; cbn; try constructor. unfold values. induction (tb_syms (k_tbl s)) as [|[i n b] l IH]; cbn; [constructor|]. destruct b; cbn; auto; constructor; cbn; auto.
Qed.

(** A visible local is what its name means, and it is the only one of that name;
    different locals have different references. *)
Theorem innermost_wins : forall E f x i, clean E -> en_fun E = Some f -> In (x, i) (concat (en_scopes E)) ->
  lookup E x = Some (RLocal f i) /\
  (forall j, In (x, j) (concat (en_scopes E)) -> j = i) /\
  (forall y, lookup E y = Some (RLocal f i) -> y = x).
Proof.
  intros E f x i [A B C D] F I. pose proof (proj2 (assoc_in x _ i A) I) as L. unfold lookup. rewrite F, L. split; auto. split.
  - intros j J. apply (assoc_in x _ j A) in J. congruence.
  - intros y. destruct (assoc y (concat (en_scopes E))) as [j|] eqn:Y.
    + intros [= ->]. apply (assoc_in y _ i A) in Y. clear - B I Y. induction (concat (en_scopes E)) as [|[z k] l IH]; [contradiction|]. cbn in B. inversion B as [|? ? Nk B']; subst.
      destruct I as [I|I], Y as [Y|Y]; auto; [congruence| |]; exfalso; apply Nk; apply in_map_iff; eexists; split; eauto; cbn; congruence.
    + destruct (position y (en_params E)); [discriminate|]. intros G. exfalso. unfold assoc in G. destruct (find _ (en_globals E)) as [[z r]|] eqn:Fd; [|discriminate].
      apply find_some in Fd as (Fd & _). pose proof (proj1 (Forall_forall _ _) D _ Fd) as X. cbn in G, X. injection G as ->. exact X.
Qed.

(** The locals of a block are not found after it: whatever a name means as a
    local after a block, a [while] or a [for], it meant before; and a local that
    was visible before still means the same. *)
Theorem closed_locals_gone : forall params E s E', scoped params E s E' -> clean E ->
  (match s with SBlock _ _ | SWhile _ _ _ | SFor _ _ _ _ _ => True | _ => False end) ->
  forall x f i, lookup E' x = Some (RLocal f i) <-> lookup E x = Some (RLocal f i).
Proof.
  intros params E s E' H Cl K. assert (X : en_scopes E' = en_scopes E /\ grown E E').
  { split; [|apply (scoped_grows params) in H; exact H]. destruct H; try contradiction; apply grown_leave; repeat match goal with H : scoped _ _ _ _ |- _ => apply (scoped_grows params) in H | H : scoped_all _ _ _ _ |- _ => apply (scoped_grows params) in H end; eauto using grown_trans. }
  destruct X as (X & F & P & _). pose proof (proj1 (scopes_clean params) _ _ _ H Cl) as Cl'. intros x f i. unfold lookup. rewrite F, X, P.
  assert (Gl : forall E f i, clean E -> assoc x (en_globals E) <> Some (RLocal f i)).
  { clear. intros E f i Cl G. unfold assoc in G. destruct (find _ (en_globals E)) as [[z r]|] eqn:Fd; [|discriminate].
    apply find_some in Fd as (Fd & _). pose proof (proj1 (Forall_forall _ _) (cl_globals _ Cl) _ Fd) as X. cbn in G, X. injection G as ->. exact X. }
  destruct (en_fun E) as [f0|]; [destruct (assoc x (concat (en_scopes E))); [tauto|]; destruct (position x (en_params E)); [tauto|]|]; split; intros L; apply Gl in L; auto; contradiction.
Qed.
Print Assumptions scopes_clean.
Print Assumptions innermost_wins.
Print Assumptions closed_locals_gone.

(** ** A case *)
Definition scope_source : text :=
  text_of "a := 1 func f(a: int, b: int): int { while a > 0 { c := a } { c := b } d := a a := 2 if b > a { e := a } return a + e } { g := 5 } g = a".
Example scope_case :
  option_map fst (match parse_program 200 (start_parse init_tbl scope_source) with COk ss p => Some (ss, p) | _ => None end) =
  Some [SAsg 1 DECLARE (EId (text_of "a") (Some (RGlobal 0))) (EInt 1);
        SProc 1 1
          (SBlock 1 [SWhile 1 (EBin BGt (EId (text_of "a") (Some (RArg 1 0))) (EInt 0))
                       (SBlock 1 [SAsg 1 DECLARE (EId (text_of "c") (Some (RLocal 1 0))) (EId (text_of "a") (Some (RArg 1 0)))]);
                     SBlock 1 [SAsg 1 DECLARE (EId (text_of "c") (Some (RLocal 1 1))) (EId (text_of "b") (Some (RArg 1 1)))];
                     SAsg 1 DECLARE (EId (text_of "d") (Some (RLocal 1 2))) (EId (text_of "a") (Some (RArg 1 0)));
                     SAsg 1 DECLARE (EId (text_of "a") (Some (RLocal 1 3))) (EInt 2);
                     SIf 1 (EBin BGt (EId (text_of "b") (Some (RArg 1 1))) (EId (text_of "a") (Some (RLocal 1 3))))
                       (SBlock 1 [SAsg 1 DECLARE (EId (text_of "e") (Some (RLocal 1 4))) (EId (text_of "a") (Some (RLocal 1 3)))]) None;
                     SReturn 1 (Some (EBin BAdd (EId (text_of "a") (Some (RLocal 1 3))) (EId (text_of "e") None)))]);
        SBlock 1 [SAsg 1 DECLARE (EId (text_of "g") (Some (RGlobal 2))) (EInt 5)];
        SAsg 1 EQUAL (EId (text_of "g") (Some (RGlobal 2))) (EId (text_of "a") (Some (RGlobal 0)))].
Proof. vm_compute. reflexivity. Qed.
