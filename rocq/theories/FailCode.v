(** * What a compile leaves alone in the state, even when it fails

    [s0] is the state before, [pre] its code without the final TINY_OP_HALT. *)
From Verif Require Import Base Token Lexer Values Strings Code CodeProofs FileLine Syntax Symbols Parser Resolve Compile Layout LayoutProofs
  CompileProofs Host TableInv ParserInv LayTable Whole FailTable.
Local Open Scope nat_scope.
Local Open Scope cm_scope.

Lemma Forall2_length {A B} (R : A -> B -> Prop) l1 l2 : Forall2 R l1 l2 -> length l1 = length l2.
Proof. induction 1; cbn; auto. Qed.

Section Fail.
Variable s0 : kst.
Notation t0 := (k_tbl s0).
Notation b := (tb_next t0).
Hypothesis G0 : good full t0.
Variable pre : program.

(** During a compile *)
Record kl (s : kst) : Prop := mkKl {
  kl_tbl : base t0 (k_tbl s);
  kl_code : exists r, k_code s = pre ++ r;
  kl_fpcs : forall i pc, i < tb_nfun t0 -> nth_error (k_fpcs s0) i = Some (Some pc) -> nth_error (k_fpcs s) i = Some (Some pc);
  kl_ftab : forall y i a va r c, In y (tb_syms t0) -> sy_body y = SyForeign i a va r c ->
    nth_error (k_ftab s0) i = Some (Some c) -> nth_error (k_ftab s) i = Some (Some c);
  kl_lines : forall l1 l2, k_lines s0 = l1 ++ l2 -> Forall (fun r => (pl_pc r < plen pre)%Z) l1 -> exists l, k_lines s = l1 ++ l
}.
Definition kk {A} (m : km A) (Q : A -> Prop) : Prop := ke kl m Q.

Let Ids : Forall (fun y => sy_id y < b) (tb_syms t0) := gd_next _ _ G0.
Let Nd : NoDup (map sy_id (tb_syms t0)) := gd_unique _ _ G0.

Lemma kk_tbl {A} (m : tbl -> cres tbl A) Q : ke (base t0) m Q -> kk (kon_tbl m) Q.
Proof.
  intros M s [K1 K2 K3 K4 K5]. unfold kon_tbl. specialize (M _ K1). destruct (m (k_tbl s)); auto.
  - destruct M as (M & q). split; auto. constructor; auto.
  - constructor; auto.
Qed.
Lemma kl_set_code s r : kl s -> kl (set_code s (pre ++ r)).
Proof. intros [K1 K2 K3 K4 K5]. constructor; auto. cbn. eauto. Qed.
Lemma kk_emit x : kk (emit x) any.
Proof. intros s K. pose proof K as [_ (r & E) _ _ _]. unfold emit, gen_code. rewrite E, <- app_assoc. split; [apply kl_set_code; auto|exact I]. Qed.
Lemma kk_emit_i i : kk (emit_i i) any.
Proof.
  intros s K. pose proof K as [_ (r & E) _ _ _]. unfold emit_i. destruct (gen_instr_ext (k_code s) i) as (tl & ->). rewrite E, <- app_assoc.
  split; [apply kl_set_code; auto|exact I].
Qed.
Lemma kk_emit_value sz al v : kk (emit_value sz al v) (fun p => (plen pre <= p)%Z).
Proof.
  intros s K. pose proof K as [_ (r & E) _ _ _]. unfold emit_value, gen_value. rewrite E, <- !app_assoc.
  split; [apply kl_set_code; auto|]. unfold plen. rewrite !app_length. lia.
Qed.
Lemma kk_gen_jump o d : kk (gen_jump o d) (fun p => (plen pre <= p)%Z).
Proof. unfold gen_jump. eapply ke_bind0; [apply kk_emit|]. intros _. apply kk_emit_value. Qed.
Lemma kk_here : kk here any.
Proof. intros s K. split; [exact K|exact I]. Qed.
Lemma put_bytes_pre bs : forall r n c, length pre <= n -> put_bytes (pre ++ r) n bs = Ok c -> exists r', c = pre ++ r'.
Proof.
  induction bs as [|x bs IH]; intros r n c L E; cbn [put_bytes] in E; [injection E as <-; eauto|].
  destruct (n <? length (pre ++ r)); try discriminate.
  assert (U : update (pre ++ r) n x = pre ++ update r (n - length pre) x).
  { clear - L. revert n L. induction pre as [|y p IH]; intros n L; cbn [app length] in *; [rewrite Nat.sub_0_r; auto|].
    destruct n as [|n]; [lia|]. specialize (IH n ltac:(lia)). unfold update in *. cbn [Nat.sub firstn skipn app] in *. rewrite IH. reflexivity. }
  rewrite U in E. eapply IH; [|exact E]. lia.
Qed.
Lemma kk_patch p v : (plen pre <= p)%Z -> kk (patch p v) any.
Proof.
  intros L s K. pose proof K as [_ (r & E) _ _ _]. unfold patch, gen_value_at. rewrite E.
  unfold oassert, orequire. destruct (Z.rem p 4 =? 0)%Z; auto. destruct (0 <=? p)%Z; auto.
  destruct (put_bytes _ _ _) as [c| | |] eqn:P; auto. assert (L' : length pre <= Z.to_nat p) by (unfold plen in L; lia). destruct (put_bytes_pre _ _ _ _ L' P) as (r' & ->).
  split; [apply kl_set_code; auto|exact I].
Qed.
Lemma kk_push_int z : kk (push_int z) any.
Proof. unfold push_int. destruct (z =? 0)%Z; [|destruct (z =? 1)%Z]; apply kk_emit_i. Qed.
Lemma kk_push_string i : kk (push_string i) any.
Proof. unfold push_string. destruct (Z.of_nat i <=? 255)%Z; apply kk_emit_i. Qed.
Lemma kk_call_sym n x : kk (call_sym n x) any.
Proof.
  destruct x; cbn [call_sym]; try apply ke_abort; try apply kk_emit_i. eapply ke_bind0; [apply kk_emit|]. intros _.
  destruct (_ && _); [apply ke_fail|]. eapply ke_bind0; [apply kk_emit|]. intros _. eapply ke_bind0; [eapply ke_any, kk_emit_value|]. intros _. apply ke_ret. exact I.
Qed.
Lemma kk_call_id n id : kk (call_id n id) any.
Proof. intros s K. unfold call_id. destruct (sym_at _ id) as [y|]; auto. exact (kk_call_sym n (sy_body y) s K). Qed.
Lemma kk_get_ref r : kk (get_ref r) any.
Proof.
  intros s K. unfold get_ref.
  assert (X : match (match var_of (k_tbl s) r with
        | Some v => if ((lv_index v <? 0) || (255 <? lv_index v))%Z%bool
                    then emit_i (IGetLocal (lv_index v)) s
                    else emit_i (IGetLocalW (lv_index v)) s
        | None => CUB
        end) with COk a s' => kl s' /\ any a | CFail s' => kl s' | _ => True end).
  { destruct (var_of _ _) as [v|]; auto. destruct (_ || _); apply kk_emit_i; auto. }
  destruct r as [id|id|f i|f i]; try exact X.
  - destruct (sym_at _ id) as [[? ? []]|]; auto. apply kk_emit_i; auto.
  - destruct (sym_at _ id) as [[? ? []]|]; auto. destruct c; [apply kk_emit_i|apply kk_push_int|apply kk_emit_i|apply kk_push_string]; auto.
Qed.
Lemma kk_set_ref r : kk (set_ref r) any.
Proof.
  intros s K. unfold set_ref.
  assert (X : match (match var_of (k_tbl s) r with Some v => emit_i (ISetLocal (lv_index v)) s | None => CUB end)
    with COk a s' => kl s' /\ any a | CFail s' => kl s' | _ => True end).
  { destruct (var_of _ _) as [v|]; auto. apply kk_emit_i; auto. }
  destruct r as [id|id|f i|f i]; try exact X; auto. destruct (sym_at _ id) as [[? ? []]|]; auto. apply kk_emit_i; auto.
Qed.
Lemma kk_need_field g f : kk (need_field g f) any.
Proof. intros s K. unfold need_field. destruct (field_no _ _ _) as [i|]; auto. destruct (i <=? 255)%Z; auto. split; auto. exact I. Qed.
Lemma kk_if {A} (c : bool) (m m' : km A) Q : kk m Q -> kk m' Q -> kk (if c then m else m') Q.
Proof. destruct c; auto. Qed.

Lemma kk_seq_args ms : Forall (fun m => kk m any) ms -> forall i, kk (seq_args i ms) any.
Proof.
  induction 1 as [|m ms M _ IH]; intros i; cbn [seq_args]; [apply ke_ret; exact I|]. apply kk_if; [apply ke_fail|].
  eapply ke_bind0; [exact M|]. intros _. apply IH.
Qed.
Lemma kk_seq_all ms : Forall (fun m => kk m any) ms -> kk (seq_all ms) any.
Proof. induction 1 as [|m ms M _ IH]; cbn [seq_all]; [apply ke_ret; exact I|]. eapply ke_bind0; [exact M|]. intros _. apply IH. Qed.
Lemma kk_pick f ms : Forall (fun m => kk m any) ms -> forall ns, kk (pick f ns ms) any.
Proof.
  intros F ns. revert ms F. induction ns as [|n ns IH]; intros ms F; destruct F as [|m ms M F]; cbn [pick]; try (apply ke_ret; exact I); [apply ke_abort|].
  apply kk_if; auto.
Qed.
Lemma kk_by_field fs ns ms : Forall (fun m => kk m any) ms -> kk (by_field fs ns ms) any.
Proof. intros F. induction fs; cbn [by_field]; [apply ke_ret; exact I|]. eapply ke_bind0; [apply kk_pick; auto|]. intros _. auto. Qed.

Ltac kc :=
  match goal with
  | |- kk (cbind (gen_jump _ _) _) _ => eapply ke_bind; [apply kk_gen_jump|intros ? ?]
  | |- kk (cbind here _) _ => eapply ke_bind0; [apply kk_here|intros ?]
  | |- kk (cbind (patch _ _) _) _ => eapply ke_bind0; [apply kk_patch; assumption|intros _]
  | |- kk (cbind (emit_i _) _) _ => eapply ke_bind0; [apply kk_emit_i|intros _]
  | |- kk (cbind (call_id _ _) _) _ => eapply ke_bind0; [apply kk_call_id|intros _]
  | |- kk (cbind (need_field _ _) _) _ => eapply ke_bind0; [apply kk_need_field|intros ?]
  | |- kk (cbind (set_ref _) _) _ => eapply ke_bind0; [apply kk_set_ref|intros _]
  | |- kk (cbind (compile_expr ?e) _) _ => match goal with H : kk (compile_expr e) any |- _ => eapply ke_bind0; [exact H|intros _] end
  | |- kk (compile_expr ?e) _ => assumption
  | |- kk (patch _ _) _ => apply kk_patch; assumption
  | |- kk (emit_i _) _ => apply kk_emit_i
  | |- kk (push_int _) _ => apply kk_push_int
  | |- kk (push_string _) _ => apply kk_push_string
  | |- kk (get_ref _) _ => apply kk_get_ref
  | |- kk (call_id _ _) _ => apply kk_call_id
  | |- kk (cret _) _ => apply ke_ret
  | |- kk cfail _ => apply ke_fail
  | |- kk cub _ => apply ke_ub
  | |- kk cabort _ => apply ke_abort
  | |- kk (if _ then _ else _) _ => apply kk_if
  | |- any _ => exact I
  | |- ke _ ?m ?q => change (kk m q)
  end.
Ltac kcs := repeat kc.

Lemma kk_named f n : kk (fun s => match reference_function (k_tbl s) f with Some y => call_sym n (sy_body y) s | None => CFail s end) any.
Proof. intros s K. destruct (reference_function _ f) as [y|]; auto. exact (kk_call_sym n (sy_body y) s K). Qed.

Lemma kk_expr e : kk (compile_expr e) any.
Proof.
  induction e using texpr_ind'; cbn [compile_expr]; kcs.
  - eapply ke_bind0; [apply kk_seq_args, Forall_map; exact H|]. intros n. eapply ke_bind0; [apply kk_named|]. intros _. kcs.
  - destruct o; cbn [binop_of]; kcs; try (destruct (is_one e2); kcs; fail).
  - destruct o; kcs. destruct e; kcs.
  - intros s K. destruct (sym_at _ _) as [[? ? [| | | |[]| | |]]|]; auto.
    match goal with |- match cbind ?m ?f s with _ => _ end => change (match cbind m f s with COk a s' => kl s' /\ any a | CFail s' => kl s' | _ => True end) end.
    revert s K. change (kk ((match ns with [] => seq_all (map compile_expr args) | _ => by_field fields ns (map compile_expr args) end) ;;;
      emit_i (IPushStruct (Z.of_nat (length fields) mod 256))) any).
    eapply ke_bind0; [|intros _; apply kk_emit_i]. destruct ns; [apply kk_seq_all|apply kk_by_field]; apply Forall_map; exact H.
Qed.
Lemma kk_compile_call f args : kk (compile_call f args) any.
Proof.
  unfold compile_call. eapply ke_bind0; [apply kk_seq_args, Forall_map, Forall_forall; intros; apply kk_expr|]. intros n. apply kk_named.
Qed.
Ltac ke1 := match goal with |- kk (cbind (compile_expr ?e) _) _ => eapply ke_bind0; [apply kk_expr|intros _] | |- kk (compile_expr _) _ => apply kk_expr end.
Ltac kall := repeat first [ke1 | kc].
Lemma kk_rhs op l r : kk (compile_rhs op l r) any.
Proof. unfold compile_rhs. destruct (compound_op op) as [[]|]; kall. Qed.
Lemma kk_assign op l r : match l with TId v _ => ref_new t0 v | _ => True end -> kk (compile_assign op l r) any.
Proof.
  intros N. destruct l; cbn [compile_assign]; try (kall; fail).
  - eapply ke_bind0; [apply kk_rhs|]. intros _. kall. apply kk_tbl. apply ke_set_var_init; auto.
  - eapply ke_bind0; [apply kk_rhs|]. intros _. kall.
  - kall. eapply ke_bind0; [apply kk_rhs|]. intros _. destruct setf; kall.
Qed.
Definition jumps_new (ps : list (bool * Z)) : Prop := Forall (fun p => (plen pre <= snd p)%Z) ps.
Lemma kk_patch_all ps x y : jumps_new ps -> kk (patch_all ps x y) any.
Proof. induction 1 as [|[c p] ps H _ IH]; cbn [patch_all]; [kall|]. eapply ke_bind0; [apply kk_patch; exact H|]. intros _. apply IH. Qed.

Lemma add_record_pre l1 : forall l r, Forall (fun x => (pl_pc x < plen pre)%Z) l1 -> (plen pre <= pl_pc r)%Z -> exists l', add_record (l1 ++ l) r = l1 ++ l'.
Proof.
  induction l1 as [|x l1 IH]; intros l r F L; [cbn; eauto|]. inversion F as [|? ? F1 F2]; subst.
  destruct (l1 ++ l) as [|z zs] eqn:E.
  - apply app_eq_nil in E as (-> & ->). cbn. destruct (Z.eqb_spec (pl_pc r) (pl_pc x)); [lia|]. exists [r]. reflexivity.
  - destruct (IH l r F2 L) as (l' & E'). exists l'. cbn [app]. rewrite <- E', E. reflexivity.
Qed.
Lemma kk_record_line f n : kk (record_line f n) any.
Proof.
  unfold record_line. eapply ke_bind0.
  - destruct f; kall. eapply ke_bind0; [apply kk_tbl, ke_intern|]. intros. kall.
  - intros k s K. pose proof K as [K1 (r & E) K3 K4 K5]. split; [|exact I]. constructor; auto; cbn; [eauto|].
    intros l1 l2 El F. destruct (K5 _ _ El F) as (l & ->). apply add_record_pre; auto. cbn. rewrite E. unfold plen. rewrite app_length. lia.
Qed.
Lemma kk_set_fpc f pc : b <= f -> kk (set_fpc f pc) any.
Proof.
  intros L s K. unfold set_fpc. destruct (sym_at _ f) as [[? ? []]|] eqn:Y; auto. destruct (index <? length (k_fpcs s)); auto. split; [|exact I].
  pose proof K as [K1 K2 K3 K4 K5]. constructor; auto. cbn [set_fpcs k_fpcs]. intros i pc' Li E.
  pose proof (at_new t0 Ids _ _ _ K1 L Y) as (_ & N). cbn in N. rewrite nth_error_update_ne by lia. eauto.
Qed.
Lemma kk_seq_stmts ms : Forall (fun m => kk m jumps_new) ms -> kk (seq_stmts ms) jumps_new.
Proof.
  induction 1 as [|m ms M _ IH]; cbn [seq_stmts]; [kall; constructor|]. eapply ke_bind; [exact M|]. intros p Hp.
  eapply ke_bind; [exact IH|]. intros q Hq. kall. apply Forall_app; auto.
Qed.
Lemma kk_stmt file st : tstmt_new t0 st -> kk (compile_stmt file st) jumps_new.
Proof.
  induction st using tstmt_ind'; intros N; cbn [compile_stmt]; (eapply ke_bind0; [apply kk_record_line|intros _]);
    try (kall; repeat constructor; auto; fail).
  - eapply ke_bind0; [apply kk_compile_call|]. intros _. kall. constructor.
  - eapply ke_bind0; [apply kk_assign; apply decl_ref; exact N|]. intros _. kall. constructor.
  - eapply ke_bind0; [apply kk_assign; exact N|]. intros _. kall. constructor.
  - apply tstmts_new_block in N. apply kk_seq_stmts. apply Forall_map. revert N. induction H as [|x ss Hx _ IH]; intros N; constructor;
      destruct N as (N1 & N2); auto.
  - destruct N as (N1 & N2). kall. eapply ke_bind0; [apply kk_set_fpc; exact N1|]. intros n0. eapply ke_bind0; [kall|]. intros _.
    eapply ke_bind0; [eapply ke_any; exact (IHst N2)|]. intros _. kall. constructor.
  - destruct N as (N1 & N2). kall. eapply ke_bind; [exact (IHst N1)|]. intros p Hp. destruct b as [y|]; kall; auto.
    eapply ke_bind; [exact (H _ eq_refl N2)|]. intros q Hq. kall. apply Forall_app; auto.
  - kall. eapply ke_bind; [exact (IHst N)|]. intros p Hp. kall. eapply ke_bind0; [apply kk_patch_all; exact Hp|]. intros _. kall. constructor.
  - destruct N as (N1 & N2 & N3). eapply ke_bind0; [eapply ke_any; exact (IHst1 N1)|]. intros _. kall.
    eapply ke_bind; [exact (IHst3 N3)|]. intros p Hp. kall. eapply ke_bind0; [eapply ke_any; exact (IHst2 N2)|]. intros _. kall.
    eapply ke_bind0; [apply kk_patch_all; exact Hp|]. intros _. kall. constructor.
  - destruct e; kall; constructor.
Qed.
Lemma kk_all file ss : tstmts_new t0 ss -> kk (compile_all file ss) any.
Proof.
  induction ss as [|s ss IH]; intros N; cbn [compile_all]; kall. destruct N as (N1 & N2). eapply ke_bind0; [eapply ke_any; exact (kk_stmt file s N1)|]. intros _. exact (IH N2).
Qed.

(** Between compiles the code is at least as long as it was *)
Hypothesis C0 : (k_code s0 = [] /\ pre = []) \/ k_code s0 = pre ++ [43%Z].
Definition ks (s : kst) : Prop := kl s /\ length (k_code s0) <= length (k_code s).
Definition kt {A} (P : kst -> Prop) (m : km A) (Q : A -> kst -> Prop) : Prop :=
  forall s, P s -> match m s with COk a s' => Q a s' | CFail s' => kl s' | _ => True end.
Lemma kt_bind {A B} P (m : km A) Q (f : A -> km B) Q' : kt P m Q -> (forall a, kt (Q a) (f a) Q') -> kt P (cbind m f) Q'.
Proof. intros M F s p. unfold cbind. specialize (M s p). destruct (m s); auto. exact (F _ _ M). Qed.
Lemma kt_kk {A} (m : km A) Q : kk m Q -> kt kl m (fun a s => kl s /\ Q a).
Proof. intros M s p. exact (M s p). Qed.

Lemma code_len : length pre <= length (k_code s0) <= S (length pre).
Proof. destruct C0 as [(-> & ->)| ->]; [cbn; lia|]. rewrite app_length. cbn. lia. Qed.

Lemma drop_halt_cases c : drop_halt c = c \/ c = drop_halt c ++ [43%Z].
Proof.
  unfold drop_halt. destruct (rev c) as [|x r] eqn:E; auto.
  assert (X : c = rev r ++ [x]) by (rewrite <- (rev_involutive c), E; reflexivity).
  assert (D : (x = 43%Z) \/ match x with 43%Z => rev r | _ => c end = c).
  { destruct x as [|q|q]; auto. repeat (destruct q as [q|q|]; auto). }
  destruct D as [->|D]; auto. 
Qed.
Lemma kl_drop s : ks s -> kl (set_code s (drop_halt (k_code s))).
Proof.
  intros (K & L). pose proof K as [K1 (r & E) K3 K4 K5]. constructor; auto. cbn.
  destruct (drop_halt_cases (k_code s)) as [D|D]; [rewrite D, E; eauto|].
  destruct (rev r) as [|x r'] eqn:R.
  - assert (r = []) as -> by (rewrite <- (rev_involutive r), R; reflexivity). rewrite app_nil_r in E. exfalso.
    pose proof code_len. assert (X : k_code s0 = []).
    { destruct C0 as [(Z & _)|Z]; auto. rewrite E, Z, app_length in L. cbn in L. lia. }
    rewrite X in *. cbn in H. destruct pre; [|cbn in H; lia]. rewrite E in D. destruct (drop_halt []); discriminate.
  - assert (X : r = rev r' ++ [x]) by (rewrite <- (rev_involutive r), R; reflexivity). rewrite D in E. rewrite X, app_assoc in E.
    apply app_inj_tail in E as (E & _). rewrite E. eauto.
Qed.

Lemma build_foreign_pre ss : Forall (fun y => forall i a va r c, sy_body y = SyForeign i a va r c ->
     forall y0 a0 va0 r0 c0, In y0 (tb_syms t0) -> sy_body y0 = SyForeign i a0 va0 r0 c0 -> c = c0) ss ->
  forall f f', build_foreign ss f = Some f' -> forall y0 i a va r c, In y0 (tb_syms t0) -> sy_body y0 = SyForeign i a va r c ->
  nth_error f i = Some (Some c) -> nth_error f' i = Some (Some c).
Proof.
  induction 1 as [|[id n x] ss H _ IH]; intros f f' E y0 i a va r c I0 B0 N; [injection E as <-; auto|].
  cbn [build_foreign] in E. destruct x; try (eapply IH; eauto; fail). destruct (Nat.ltb_spec index (length f)) as [L|]; try discriminate.
  eapply IH; eauto. destruct (Nat.eq_dec index i) as [->|Ne]; [|rewrite nth_error_update_ne; auto].
  rewrite nth_error_update_eq by auto. f_equal. f_equal. exact (H _ _ _ _ _ eq_refl _ _ _ _ _ I0 B0).
Qed.
Lemma same_callee t : base t0 t -> Forall (fun y => forall i a va r c, sy_body y = SyForeign i a va r c ->
     forall y0 a0 va0 r0 c0, In y0 (tb_syms t0) -> sy_body y0 = SyForeign i a0 va0 r0 c0 -> c = c0) (tb_syms t).
Proof.
  intros [(l1 & l2 & -> & K & N) _ _ _ _ _ _]. apply Forall_forall. intros y Iy i a va r c By y0 a0 va0 r0 c0 I0 B0.
  apply in_app_iff in Iy as [Iy|Iy].
  - assert (X : exists x0, In x0 (tb_syms t0) /\ kept x0 y).
    { clear - K Iy. induction K as [|u v l l' Ku K IH]; [contradiction|]. destruct Iy as [<-|Iy]; [exists u; split; [left|]; auto|].
      destruct (IH Iy) as (w & I1 & I2). exists w. split; [right|]; auto. }
    destruct X as (x0 & Ix & (_ & _ & Kb)). rewrite By in Kb.
    assert (Bx : sy_body x0 = SyForeign i a va r c) by (destruct Kb as [Kb|Kb]; auto; destruct (sy_body x0) as [| | | |[]| | |]; contradiction).
    assert (x0 = y0).
    { apply (keys_unique _ (gd_keys _ _ G0) _ _ (NForeign, i)); auto; [rewrite Bx|rewrite B0]; left; reflexivity. }
    subst. congruence.
  - pose proof (proj1 (Forall_forall _ _) N _ Iy) as (_ & Q). rewrite By in Q. cbn in Q.
    pose proof (gd_count _ _ G0) as Cn. eapply Forall_forall in Cn; [|apply (keys_in _ _ I0 (NForeign, i)); rewrite B0; left; reflexivity]. cbn in Cn. lia.
Qed.
Lemma foreign_count y i a va r c : In y (tb_syms t0) -> sy_body y = SyForeign i a va r c -> i < tb_nforeign t0.
Proof. intros I0 B0. pose proof (gd_count _ _ G0) as Cn. eapply Forall_forall in Cn; [|apply (keys_in _ _ I0 (NForeign, i)); rewrite B0; left; reflexivity]. exact Cn. Qed.

Lemma kt_state file ss : stmts_new t0 ss -> kt ks (compile_state file ss) (fun _ s => ks s).
Proof.
  intros N. unfold compile_state. eapply kt_bind with (Q := fun _ s => ks s); [intros s K; exact K|]. intros h.
  eapply kt_bind with (Q := fun _ s => kl s); [intros s K; apply kl_drop; exact K|]. intros _.
  eapply kt_bind with (Q := fun ts s => kl s /\ tstmts_new t0 ts).
  { intros s K. apply (kk_tbl (resolve_all ss)); auto. apply ke_resolve_all; auto. }
  intros ts s (K & Nt).
  match goal with |- match ?m s with _ => _ end => enough (X : kt kl m (fun _ s => ks s)) by exact (X s K) end.
  clear s K. eapply kt_bind with (Q := fun _ s => kl s).
  { intros s K. pose proof K as [K1 K2 K3 K4 K5]. constructor; auto. cbn [set_fpcs k_fpcs]. intros i pc Li E.
    pose proof (bs_nfun _ _ K1). destruct (Nat.ltb_spec 0 (tb_nfun (k_tbl s))); [|lia]. apply resize_nth; auto. lia. }
  intros _. eapply kt_bind with (Q := fun _ s => kl s).
  { intros s K. pose proof K as [K1 K2 K3 K4 K5]. constructor; auto. cbn [set_ftab k_ftab]. intros y i a va r c Iy By E.
    pose proof (bs_nforeign _ _ K1). pose proof (foreign_count _ _ _ _ _ _ Iy By).
    destruct (Nat.ltb_spec 0 (tb_nforeign (k_tbl s))); [|lia]. apply resize_nth; [eauto|lia]. }
  intros _. eapply kt_bind with (Q := fun _ s => kl s).
  { intros s K. pose proof K as [K1 K2 K3 K4 K5]. destruct (build_foreign _ _) as [f|] eqn:Ef; auto. constructor; auto. cbn [set_ftab k_ftab].
    intros y i a va r c Iy By E. exact (build_foreign_pre _ (same_callee _ K1) _ _ Ef _ _ _ _ _ _ Iy By (K4 _ _ _ _ _ _ Iy By E)). }
  intros _. eapply kt_bind with (Q := fun _ s => kl s).
  { intros s K. pose proof (kk_all file ts Nt s K) as X. destruct (compile_all file ts s); auto. apply X. }
  intros _. eapply kt_bind with (Q := fun _ s => ks s).
  { intros s K. pose proof (kk_emit_i IHalt s K) as X. unfold emit_i in *. split; [apply X|]. cbn. destruct K as [_ (r & ->) _ _ _].
    unfold gen_code. rewrite !app_length. cbn. pose proof code_len. lia. }
  intros _. eapply kt_bind with (Q := fun _ s => ks s).
  { intros s ([K1 K2 K3 K4 K5] & L). split; [constructor; auto|exact L]. }
  intros _ s K. exact K.
Qed.

Section Macros.
Variable mods : text -> macro.
Hypothesis Hm : forall m args as_, ke ks (mods m args as_) any.
Lemma ke_uses ss : ke ks (run_uses mods ss) any.
Proof.
  induction ss as [|st ss IH]; cbn [run_uses]; [apply ke_ret; exact I|]. destruct st; try exact IH.
  eapply ke_bind0; [|intros _; exact IH]. intros s K. destruct (existsb _ _); [|exact K]. destruct (128 <? length args); auto.
  revert s K. change (ke ks (b0 <- mods m args asName;; (if (b0 : bool) then cret tt else cfail)) any).
  eapply ke_bind0; [apply Hm|]. intros []; [apply ke_ret; exact I|apply ke_fail].
Qed.
Lemma ks_tbl s t : ks s -> base t0 t -> ks (set_tbl s t).
Proof. intros ([K1 K2 K3 K4 K5] & L) B. split; [constructor; auto|exact L]. Qed.
Lemma kt_body n file src : kt ks (compile_body n mods file src) (fun _ s => ks s).
Proof.
  unfold compile_body. eapply kt_bind with (Q := fun _ s => ks s); [intros s K; exact K|]. intros first.
  eapply kt_bind with (Q := fun ss s => ks s /\ stmts_new t0 ss).
  { intros s K. pose proof (kp_program t0 Ids Nd n (start_parse (k_tbl s) src)) as X. cbn in X. rewrite start_tbl in X.
    specialize (X (kl_tbl _ (proj1 K))). destruct (parse_program n (start_parse (k_tbl s) src)); auto.
    - destruct X as (X & Y). split; auto. apply ks_tbl; auto.
    - apply (ks_tbl s _ K X). }
  intros ss s (K & N).
  match goal with |- match ?m s with _ => _ end => enough (X : kt ks m (fun _ s => ks s)) by exact (X s K) end.
  clear s K. eapply kt_bind with (Q := fun _ s => ks s); [intros s K; exact K|]. intros last.
  eapply kt_bind with (Q := fun _ s => ks s).
  { intros s K. pose proof (ke_uses ss s K) as X. destruct (run_uses mods ss s); auto; apply X. }
  intros _. eapply kt_bind with (Q := fun _ s => ks s).
  { intros s K. destruct (forallb _ _); [exact K|apply K]. }
  intros _. eapply kt_bind with (Q := fun _ s => ks s); [apply kt_state; exact N|].
  intros ts. eapply kt_bind with (Q := fun _ s => ks s).
  { intros s K. destruct (forallb _ _); [exact K|apply K]. }
  intros _ s K. exact K.
Qed.
Lemma base_cut t n : base t0 t -> length (tb_syms t0) <= n -> base t0 (set_syms t (firstn n (tb_syms t))).
Proof.
  intros [(l1 & l2 & E & K & N) B1 B2 B3 B4 B5 B6] L. constructor; auto. cbn [set_syms tb_syms]. rewrite E.
  pose proof (Forall2_length _ _ _ K). exists l1, (firstn (n - length l1) l2). split; [|split; auto].
  - rewrite firstn_app, firstn_all2 by lia. reflexivity.
  - apply Forall_forall. intros y Iy. assert (J : In y l2) by (rewrite <- (firstn_skipn (n - length l1) l2); apply in_app_iff; auto).
    exact (proj1 (Forall_forall _ _) N _ J).
Qed.
Lemma base_syms t : base t0 t -> length (tb_syms t0) <= length (tb_syms t).
Proof. intros [(l1 & l2 & E & K & N) _ _ _ _ _ _]. rewrite E, app_length. pose proof (Forall2_length _ _ _ K). lia. Qed.
Lemma roll_ok s1 s : ks s1 -> kl s -> ks (roll_back s1 s).
Proof.
  intros (K & L) [K1 (r & E) K3 K4 K5]. pose proof code_len. split.
  - constructor; auto; cbn [roll_back k_tbl k_code].
    + apply base_cut; auto. apply base_syms. apply K.
    + rewrite E, <- app_assoc, firstn_app. rewrite firstn_all2 by lia. eauto.
  - cbn [roll_back k_code]. rewrite firstn_length, app_length, skipn_length. lia.
Qed.
Lemma ke_compile n file src : ke ks (compile_string n mods file src) any.
Proof.
  intros s K. unfold compile_string. pose proof (kt_body n file src s K) as X. destruct (compile_body n mods file src s); auto.
  - split; [exact X|exact I].
  - apply roll_ok; auto.
Qed.
End Macros.
Lemma ke_host n o : ke ks (host n o) any.
Proof.
  intros s K. unfold host, kon_tbl.
  assert (X : ke (base t0) (match o with
           | HType name => register_type name
           | HFun sig callee => bind_host n sig callee
           | HConst name c => bind_const name c
           | HMacro name => bind_macro name
           end) any).
  { destruct o; [apply ke_register_type|apply ke_bind_host|apply ke_bind_const|apply ke_bind_macro]; auto. }
  specialize (X _ (kl_tbl _ (proj1 K))). destruct (match o with HType _ => _ | _ => _ end _); auto.
  - split; [apply ks_tbl; auto; apply X|exact I].
  - apply ks_tbl; auto.
Qed.
End Fail.
