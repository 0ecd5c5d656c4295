(** * C43: exactly which sources are accepted *)
From Verif Require Import Base Token Lexer Values Strings Code FileLine Syntax Symbols Parser Resolve Compile Layout LayoutProofs CompileProofs TableInv.
From Verif Require Import ParserInv ResolveInv ParserTotal Host Whole Grammar GrammarStmt Props_Compile Props_Parser Props_Stmt Props_Names Props_Typing.
From Verif Require Import TypingProofs TypingExpr TypingStmt Typing Accept AcceptCode AcceptStmt AcceptReady AcceptGrammar AcceptRoom AcceptWhole.
Local Open Scope nat_scope.

(** [src] can be compiled into [s0]: a program of the grammar (C39), all
    structures defined, well typed (C42), and what Accept.v lists. *)
Definition acceptable (s0 : kst) (src : text) (ts : list tstmt) : Prop :=
  exists a x ss T T', tokens src a x /\ GrammarStmt.program (k_tbl s0) a x ss T /\ structs_defined (k_tbl s0) T /\
    all_typed T ss ts T' /\ Forall (fine_s T') ts.

(** The sources considered: no macros, and no literal [-2^31] (finding F28) *)
Definition simple_source (src : text) : Prop := Forall (fun t => tk t <> USE /\ (tk t = INT -> tk_i t <> (- 2^31)%Z)) (fst (lex_all src)).
(** Room in the string table for the literals and the file name *)
Definition enough_room (s0 : kst) (file : option text) (src : text) : Prop :=
  length (tb_strings (k_tbl s0)) + literals (fst (lex_all src)) + match file with Some _ => 1 | None => 0 end <= 1024.

Lemma fine_all t ss : fine_ss t ss <-> Forall (fine_s t) ss.
Proof. induction ss as [|s ss IH]; cbn; [split; [constructor|auto]|]. rewrite IH. symmetry. apply Forall_cons_iff. Qed.

Lemma defined_iff told T : unique T -> (exists ns, map label (tb_syms T) = map label (tb_syms told) ++ ns) ->
  structs_defined told T <-> forallb struct_defined (skipn (length (tb_syms told)) (tb_syms T)) = true.
Proof.
  intros U (ns & Lb).
  assert (Ids : map sy_id (tb_syms T) = map sy_id (tb_syms told) ++ map (fun x => fst (fst x)) ns).
  { apply (f_equal (map (fun x => fst (fst x)))) in Lb. rewrite map_app, !map_map in Lb. exact Lb. }
  assert (Nw : map sy_id (skipn (length (tb_syms told)) (tb_syms T)) = map (fun x => fst (fst x)) ns).
  { rewrite <- skipn_map, Ids, skipn_app, skipn_all2 by (rewrite map_length; lia). rewrite map_length, Nat.sub_diag. reflexivity. }
  assert (Od : map sy_id (firstn (length (tb_syms told)) (tb_syms T)) = map sy_id (tb_syms told)).
  { rewrite <- firstn_map, Ids. rewrite <- (map_length sy_id (tb_syms told)) at 1. rewrite firstn_app, Nat.sub_diag, firstn_all. apply app_nil_r. }
  unfold unique in U. rewrite Ids in U. rewrite forallb_forall. split.
  - intros H y Iy. unfold struct_defined. destruct y as [id nm b]. destruct b; try reflexivity. cbn. eapply H.
    + apply (proj2 (denotes_at T id nm (SyStruct defined fields))). apply (in_sym_at T (mkSym id nm (SyStruct defined fields))); [unfold unique; rewrite Ids; exact U|].
      rewrite <- (firstn_skipn (length (tb_syms told)) (tb_syms T)). apply in_or_app. right. exact Iy.
    + intros nm' b' D. apply denotes_at in D. apply sym_at_in in D as (D & _). apply (in_map sy_id) in D. cbn in D.
      apply (in_map sy_id) in Iy. rewrite Nw in Iy. cbn in Iy. clear - U D Iy. induction (map sy_id (tb_syms told)) as [|z l IH]; [exact D|].
      inversion U as [|? ? N Nd]; subst. destruct D as [->|D]; [apply N, in_or_app; auto|exact (IH Nd D)].
  - intros H id nm d fs D N. apply denotes_at in D. apply sym_at_in in D as (I & _).
    rewrite <- (firstn_skipn (length (tb_syms told)) (tb_syms T)) in I. apply in_app_or in I as [I|I]; [|exact (H _ I)].
    exfalso. apply (in_map sy_id) in I. rewrite Od in I. cbn in I. apply in_map_iff in I as ([i' n' b'] & E & I). cbn in E. subst i'.
    apply (N n' b'). apply denotes_at. apply (in_sym_at told (mkSym id n' b')); [|exact I]. unfold unique.
    clear - U. induction (map sy_id (tb_syms told)) as [|z l IH]; [constructor|]. inversion U as [|? ? N Nd]; subst. constructor; [|auto].
    intros X. apply N, in_or_app. auto.
Qed.

(** The outcome for a source that passes the parser and the type checker *)
Lemma typed_outcome s0 fuel mods file src a x ss T ts T' : reachable s0 -> simple_source src -> enough_room s0 file src ->
  parse_fuel (fst (lex_all src)) <= fuel ->
  tokens src a x -> GrammarStmt.program (k_tbl s0) a x ss T -> structs_defined (k_tbl s0) T -> all_typed T ss ts T' ->
  (Forall (fine_s T') ts /\ exists s, compile_string fuel mods file src s0 = COk ts s) \/
  (~ Forall (fine_s T') ts /\ exists s, compile_string fuel mods file src s0 = CFail s).
Proof.
  intros R Si Rm L Tk Pr Sd W. unfold enough_room in Rm.
  destruct (proj2 (source_to_program s0 src fuel ss T R ltac:(lia) L) (ex_intro _ a (ex_intro _ x (conj Tk Pr)))) as (p & P & <-).
  destruct (parsed_facts _ _ _ _ _ R P) as (G & Fn & Lb). pose proof (gd_unique _ _ G) as U.
  assert (Ta : fst (lex_all src) = a) by (unfold tokens in Tk; rewrite Tk; reflexivity). unfold simple_source in Si. rewrite Ta in Si, Rm.
  assert (Nu : Forall (fun t => tk t <> USE) a) by (revert Si; apply Forall_impl; tauto).
  assert (Pl : Forall plain a) by (revert Si; apply Forall_impl; unfold plain; tauto).
  pose proof (room_program _ _ _ _ _ Pr) as Ro. unfold takes_room in Ro.
  assert (Rf : room file (ps_tbl p)) by (unfold room, max_strings; destruct file; [right|exact I]; lia).
  pose proof (compile_state_out file ss (set_tbl s0 (ps_tbl p)) ts T' G (program_lit _ _ _ _ _ Pr Pl) Fn Rf W) as O. cbn [k_tbl set_tbl] in O.
  unfold compile_string. rewrite (body_parsed fuel mods file src s0 ss p P (no_use_tokens _ _ _ _ _ Pr Nu)). cbn zeta.
  rewrite (proj1 (defined_iff _ _ U Lb) Sd). rewrite <- fine_all.
  destruct O as [(Fi & ts1 & s & E & -> & Sh & Ini)|(Fi & s & E)]; rewrite E.
  - left. split; [exact Fi|]. exists s.
    pose proof (shape_trans _ _ _ (proj1 (all_typed_shape _ _ _ _ U W)) Sh) as Sh0.
    assert (Ls : length (tb_syms (ps_tbl p)) = length (tb_syms (k_tbl s))) by (destruct Sh0 as (Er & _); apply (f_equal (@length sym)) in Er; rewrite !map_length in Er; exact Er).
    rewrite Ls, slice_all.
    rewrite (all_initialised _ _ _ _ U Lb Sh0 (program_assigned _ _ _ _ _ Pr)); [reflexivity|].
    intros v Iv. apply Ini. eapply targets_assigned; eauto.
  - right. split; [exact Fi|]. eauto.
Qed.

(** [Tiny_CompileString] succeeds for exactly the acceptable sources.  In
    particular nothing is ever rejected for a variable without a value: the check
    of tiny.c:3888-3912 cannot fail (finding F72). *)
Theorem accepted_exactly : forall s0 fuel mods file src ts, reachable s0 -> simple_source src -> enough_room s0 file src ->
  parse_fuel (fst (lex_all src)) <= fuel ->
  (exists s, compile_string fuel mods file src s0 = COk ts s) <-> acceptable s0 src ts.
Proof.
  intros s0 fuel mods file src ts R Si Rm L. split.
  - intros (s & E). destruct (compile_parts _ _ _ _ _ _ _ E) as (ss & p & s1 & t1 & Ep & Us & Er & _).
    destruct (proj1 (programs_by_grammar (k_tbl s0) src ss (ps_tbl p)) (ex_intro _ fuel (ex_intro _ p (conj Ep eq_refl)))) as (a & x & Tk & Pr).
    destruct (parsed_facts _ _ _ _ _ R Ep) as (G & Fn & Lb). pose proof (gd_unique _ _ G) as U.
    assert (Ta : fst (lex_all src) = a) by (unfold tokens in Tk; rewrite Tk; reflexivity).
    assert (Nu : Forall (fun t => tk t <> USE) a) by (unfold simple_source in Si; rewrite Ta in Si; revert Si; apply Forall_impl; tauto).
    pose proof (no_use_tokens _ _ _ _ _ Pr Nu) as Nt. pose proof (no_uses mods ss Nt _ _ _ Us) as ->. cbn [k_tbl set_tbl] in Er.
    apply program_typed_by_rules in Er; [|exact U].
    assert (Sd : structs_defined (k_tbl s0) (ps_tbl p)).
    { apply (defined_iff _ _ U Lb). unfold compile_string in E. rewrite (body_parsed fuel mods file src s0 ss p Ep Nt) in E. cbn zeta in E.
      destruct (forallb struct_defined _); [reflexivity|discriminate]. }
    destruct (typed_outcome s0 fuel mods file src a x ss (ps_tbl p) ts t1 R Si Rm L Tk Pr Sd Er) as [(Fi & _)|(_ & s' & E')]; [|congruence].
    exists a, x, ss, (ps_tbl p), t1. auto.
  - intros (a & x & ss & T & T' & Tk & Pr & Sd & W & Fi).
    destruct (typed_outcome s0 fuel mods file src a x ss T ts T' R Si Rm L Tk Pr Sd W) as [(_ & H)|(N & _)]; [exact H|contradiction].
Qed.
Print Assumptions accepted_exactly.

(** After type checking the compiler answers: code generation neither aborts nor
    runs into undefined behaviour. *)
Theorem typed_sources_answer : forall s0 fuel mods file src a x ss T ts T', reachable s0 -> simple_source src -> enough_room s0 file src ->
  parse_fuel (fst (lex_all src)) <= fuel ->
  tokens src a x -> GrammarStmt.program (k_tbl s0) a x ss T -> structs_defined (k_tbl s0) T -> all_typed T ss ts T' ->
  (exists s, compile_string fuel mods file src s0 = COk ts s) \/ exists s, compile_string fuel mods file src s0 = CFail s.
Proof. intros. destruct (typed_outcome s0 fuel mods file src a x ss T ts T') as [(_ & ?)|(_ & ?)]; auto. Qed.
Print Assumptions typed_sources_answer.

(** ** Cases *)
Definition acc_fuel : nat := Eval vm_compute in parse_fuel (fst (lex_all demo_src)).
Lemma acc_compiles : compile_string acc_fuel (fun _ _ _ _ => CAbort) None demo_src demo_s1 = COk demo_ts demo_state.
Proof. vm_cast_no_check (eq_refl (@COk kst _ demo_ts demo_state)). Qed.
Lemma demo_simple : simple_source demo_src.
Proof. unfold simple_source. vm_compute. repeat (constructor; [split; [discriminate|intros; discriminate]|]). constructor. Qed.
Lemma demo_room : enough_room demo_s1 None demo_src.
Proof. apply Nat.leb_le. vm_compute. reflexivity. Qed.
Lemma acc_enough : parse_fuel (fst (lex_all demo_src)) <= acc_fuel.
Proof. apply Nat.leb_le. vm_compute. reflexivity. Qed.
Example accepted_case : acceptable demo_s1 demo_src demo_ts.
Proof.
  apply (accepted_exactly demo_s1 acc_fuel (fun _ _ _ _ => CAbort) None demo_src demo_ts demo_reachable demo_simple demo_room acc_enough).
  exists demo_state. exact acc_compiles.
Qed.

(** A well-typed source that is rejected: it assigns to a constant. *)
Definition bad_src : text := text_of "LIMIT :: 7 x := LIMIT LIMIT = x".
Definition bad_fuel : nat := Eval vm_compute in parse_fuel (fst (lex_all bad_src)).
Definition bad_state : kst := Eval vm_compute in
  match compile_string bad_fuel (fun _ _ _ _ => CAbort) None bad_src demo_s1 with CFail s => s | _ => demo_s1 end.
Lemma bad_fails : compile_string bad_fuel (fun _ _ _ _ => CAbort) None bad_src demo_s1 = CFail bad_state.
Proof. vm_cast_no_check (eq_refl (@CFail kst (list tstmt) bad_state)). Qed.
Lemma bad_simple : simple_source bad_src.
Proof. unfold simple_source. vm_compute. repeat (constructor; [split; [discriminate|intros; discriminate]|]). constructor. Qed.
Lemma bad_room : enough_room demo_s1 (Some (text_of "a.tiny")) bad_src /\ enough_room demo_s1 None bad_src.
Proof. split; apply Nat.leb_le; vm_compute; reflexivity. Qed.
Example rejected_case : (forall ts, ~ acceptable demo_s1 bad_src ts) /\
  exists a x ss T ts T', tokens bad_src a x /\ GrammarStmt.program (k_tbl demo_s1) a x ss T /\ all_typed T ss ts T'.
Proof.
  assert (E : parse_fuel (fst (lex_all bad_src)) <= bad_fuel) by (apply Nat.leb_le; vm_compute; reflexivity). split.
  - intros ts A. apply (accepted_exactly demo_s1 bad_fuel (fun _ _ _ _ => CAbort) None bad_src ts demo_reachable bad_simple (proj2 bad_room) E) in A as (s & A).
    rewrite bad_fails in A. discriminate.
  - destruct (parse_program bad_fuel (start_parse (k_tbl demo_s1) bad_src)) as [ss p| | | | |] eqn:P; [|vm_compute in P; discriminate..].
    destruct (proj1 (programs_by_grammar (k_tbl demo_s1) bad_src ss (ps_tbl p)) (ex_intro _ bad_fuel (ex_intro _ p (conj P eq_refl)))) as (a & x & Tk & Pr).
    destruct (parsed_facts _ _ _ _ _ demo_reachable P) as (G & _).
    destruct (resolve_all ss (ps_tbl p)) as [ts T'| | | | |] eqn:W; [|exfalso; vm_compute in P; injection P as <- <-; vm_compute in W; discriminate..].
    exists a, x, ss, (ps_tbl p), ts, T'. split; [exact Tk|]. split; [exact Pr|]. apply program_typed_by_rules; [apply G|exact W].
Qed.
