(** * When code generation succeeds

    For trees whose references are in order ([ready_s], which type resolution
    guarantees, AcceptReady.v), the code generator either succeeds, exactly if the
    tree is [fine_s], or reports an error: it never aborts or leaves what C
    defines. *)
From Verif Require Import Base Token Values Strings Code CodeProofs FileLine Syntax Symbols Resolve Compile Layout LayoutProofs CompileProofs.
From Verif Require Import TypingProofs TypingExpr Typing Accept.
Local Open Scope Z_scope.

(** ** Outcomes *)
Definition out {A} (P : Prop) (r : cres kst A) (Q : A -> kst -> Prop) : Prop :=
  (P /\ exists a s', r = COk a s' /\ Q a s') \/ (~ P /\ exists s', r = CFail s').

Lemma out_iff {A} P P' (r : cres kst A) Q : (P <-> P') -> out P r Q -> out P' r Q.
Proof. unfold out. intros E. rewrite E. auto. Qed.
Lemma out_ok {A} (P : Prop) (a : A) s (Q : A -> kst -> Prop) : P -> Q a s -> out P (COk a s) Q.
Proof. intros H K. left. split; [exact H|]. exists a, s. split; [reflexivity|exact K]. Qed.
Lemma out_no {A} (P : Prop) s (Q : A -> kst -> Prop) : ~ P -> out P (CFail s) Q.
Proof. intros H. right. split; [exact H|]. exists s. reflexivity. Qed.
Lemma out_post {A} P (r : cres kst A) (Q Q' : A -> kst -> Prop) : (forall a s, Q a s -> Q' a s) -> out P r Q -> out P r Q'.
Proof. intros H [(p & a & s & E & q)|N]; [left|right; exact N]. split; auto. exists a, s. auto. Qed.
Lemma out_bind {A B} P P' (m : km A) (f : A -> km B) s Q R :
  out P (m s) Q -> (forall a s', Q a s' -> out P' (f a s') R) -> out (P /\ P') (cbind m f s) R.
Proof.
  intros [(p & a & s' & E & q)|(p & s' & E)] H; unfold cbind; rewrite E.
  - destruct (H _ _ q) as [(p' & b & s2 & E2 & q2)|(p' & s2 & E2)]; [left|right].
    + split; auto. exists b, s2. auto.
    + split; [tauto|]. exists s2. auto.
  - right. split; [tauto|]. eauto.
Qed.
Lemma out_with {A} P (r : cres kst A) Q : out P r Q -> out P r (fun a s => P /\ Q a s).
Proof. intros [(p & a & s & E & q)|N]; [left|right; exact N]. split; [exact p|]. exists a, s. auto. Qed.
(** the first part cannot fail *)
Lemma out_step {A B} P (m : km A) (f : A -> km B) s Q R :
  out True (m s) Q -> (forall a s', Q a s' -> out P (f a s') R) -> out P (cbind m f s) R.
Proof. intros H K. apply (out_iff (True /\ P)); [tauto|]. eapply out_bind; eauto. Qed.
(** the last part cannot fail *)
Lemma out_last {A B} P (m : km A) (f : A -> km B) s Q R :
  out P (m s) Q -> (forall a s', Q a s' -> out True (f a s') R) -> out P (cbind m f s) R.
Proof. intros H K. apply (out_iff (P /\ True)); [tauto|]. eapply out_bind; eauto. Qed.

Section Gen.
Variable t0 : tbl.
Variable file : option text.
Hypothesis U0 : unique t0.

Definition room (t : tbl) : Prop :=
  match file with None => True | Some f => In (until_nul f) (tb_strings t) \/ (length (tb_strings t) < max_strings)%nat end.

(** What a step of code generation keeps *)
Record K (s : kst) : Prop := mkK {
  K_shape : same_shape t0 (k_tbl s);
  K_fpcs : (tb_nfun t0 <= length (k_fpcs s))%nat;
  K_room : room (k_tbl s)
}.
Definition further (s s' : kst) : Prop := K s' /\ plen (k_code s) <= plen (k_code s').

(** Expressions touch only the code *)
Definition extends (s s' : kst) : Prop := only_code s s' /\ plen (k_code s) <= plen (k_code s').
Lemma extends_refl s : extends s s.
Proof. split; [apply only_refl|lia]. Qed.
Lemma extends_trans a b c : extends a b -> extends b c -> extends a c.
Proof. intros (A & B) (C & D). split; [eapply only_trans; eauto|lia]. Qed.
Lemma extends_K a b : extends a b -> K a -> K b.
Proof. intros (E & _) [A B C]. rewrite E. constructor; [exact A|exact B|exact C]. Qed.

(** [m] extends the code and succeeds exactly under [P] *)
Definition run (P : Prop) (m : km unit) : Prop := forall s, K s -> out P (m s) (fun _ s' => extends s s').

Lemma run_iff P P' m : (P <-> P') -> run P m -> run P' m.
Proof. intros E H s Hs. eapply out_iff; [exact E|]. auto. Qed.
Lemma run_seq P P' m m' : run P m -> run P' m' -> run (P /\ P') (cbind m (fun _ => m')).
Proof.
  intros H H' s Hs. eapply out_bind; [apply H; exact Hs|]. cbn beta. intros _ s' X. eapply out_post; [|apply H'; eapply extends_K; eauto].
  cbn beta. intros _ s2 Y. eapply extends_trans; eauto.
Qed.
Lemma run_emit_i i : run True (emit_i i).
Proof.
  intros s _. apply out_ok; [exact I|]. split; [reflexivity|]. cbn [set_code k_code]. apply ext_len. apply gen_ext.
Qed.
Lemma run_emit b : run True (emit b).
Proof.
  intros s _. apply out_ok; [exact I|]. split; [reflexivity|]. cbn [set_code k_code]. unfold gen_code. rewrite plen_app. unfold plen. lia.
Qed.
Lemma run_ret : run True (cret tt).
Proof. intros s _. apply out_ok; [exact I|apply extends_refl]. Qed.
Lemma run_fail : run False cfail.
Proof. intros s _. apply out_no. auto. Qed.
Lemma run_true (P : Prop) m : P -> run True m -> run P m.
Proof. intros p. apply run_iff. tauto. Qed.
(** followed by something that cannot fail *)
Lemma run_then P m m' : run P m -> run True m' -> run P (cbind m (fun _ => m')).
Proof. intros A B. eapply run_iff; [|apply run_seq; [exact A|exact B]]. tauto. Qed.

Lemma value4 v s : exists c pos, emit_value 4 4 v s = COk pos (set_code s c) /\ plen (k_code s) <= pos /\ plen c = pos + 4 /\ Z.rem pos 4 = 0 /\ 0 <= pos.
Proof.
  unfold emit_value. pose proof (gen_read 4 2 v (k_code s) [] ltac:(lia)) as G. change (2^2) with 4 in G.
  destruct (gen_value 4 4 v (k_code s)) as [c pos]. destruct G as ((A & B & _) & _ & L & _). exists c, pos.
  assert (0 <= plen (k_code s)) by (unfold plen; lia). split; [reflexivity|]. split; [lia|]. split; [lia|].
  split; [|lia]. rewrite Z.rem_mod_nonneg by lia. apply Z.mod_divide; [lia|exact B].
Qed.

(** ** Jumps *)
Definition slot (pos : Z) (s : kst) : Prop := 0 <= pos /\ Z.rem pos 4 = 0 /\ pos + 4 <= plen (k_code s).
Lemma jump_out op d s : out True (gen_jump op d s) (fun pos s' => extends s s' /\ slot pos s').
Proof.
  unfold gen_jump, cbind, emit. destruct (value4 d (set_code s (gen_code (k_code s) op))) as (c & pos & E & A & B & C & D). rewrite E.
  apply out_ok; [exact I|]. cbn [set_code k_code] in *. unfold gen_code in A. rewrite plen_app in A. unfold plen in A at 2. cbn [length] in A.
  split; [|split; [|split]; auto; cbn [set_code k_code]; lia]. split; [reflexivity|]. cbn [set_code k_code]. lia.
Qed.
Lemma put_bytes_ok : forall bs p pos, (pos + length bs <= length p)%nat -> exists c, put_bytes p pos bs = Ok c /\ length c = length p.
Proof.
  induction bs as [|b bs IH]; intros p pos H; cbn [put_bytes length] in *; [eauto|].
  destruct (Nat.ltb_spec pos (length p)); [|lia]. destruct (IH (update p pos b) (S pos)) as (c & E & L); [rewrite update_length; lia|].
  exists c. split; [exact E|]. rewrite L. apply update_length.
Qed.
Lemma patch_out pos v s : slot pos s -> out True (patch pos v s) (fun _ s' => extends s s').
Proof.
  intros (A & B & C). unfold patch, gen_value_at, oassert, orequire. rewrite B, Z.eqb_refl. destruct (Z.leb_spec 0 pos); [|lia].
  destruct (put_bytes_ok (le_bytes 4 v) (k_code s) (Z.to_nat pos)) as (c & E & L); [rewrite le_bytes_length; unfold plen in C; lia|].
  rewrite E. apply out_ok; [exact I|]. split; [reflexivity|]. cbn [set_code k_code]. unfold plen. lia.
Qed.
Lemma slot_extends pos a b : extends a b -> slot pos a -> slot pos b.
Proof. intros (_ & L) (A & B & C). split; [|split]; auto. lia. Qed.
Lemma here_out s : out True (here s) (fun _ s' => s' = s).
Proof. apply out_ok; auto. Qed.

(** ** Calls *)
Lemma takes_erase y y' n : erase y = erase y' -> takes (sy_body y) n -> takes (sy_body y') n.
Proof.
  intros E T. destruct y as [i nm b], y' as [i' nm' b']; cbn in *. injection E as _ _ E.
  destruct T; destruct b'; cbn in E; try discriminate; [constructor|]. injection E as <- <- <- <- <-. constructor. assumption.
Qed.
Definition callable (b : symbody) : Prop :=
  match b with SyFunc _ _ _ _ | SyForeign _ _ _ _ _ => True | _ => False end.
Lemma run_call_sym n b : callable b -> run (takes b n) (call_sym (Z.of_nat n) b).
Proof.
  intros C. destruct b as [| |index args locals ret|index args va ret callee| | | |]; try contradiction; cbn [call_sym].
  - apply run_true; [constructor|]. apply run_emit_i.
  - eapply run_iff; [|apply run_seq; [apply run_emit|]].
    + split; [intros (_ & T); exact T|intros T; split; [exact I|exact T]].
    + assert (D : takes (SyForeign index args va ret callee) n <-> length args = n \/ (va = true /\ (length args <= n)%nat)).
      { split; [intros T; inversion T; subst; auto|]. intros T. constructor. exact T. }
      destruct (negb (va && (Z.of_nat (length args) <=? Z.of_nat n)) && negb (Z.of_nat (length args) =? Z.of_nat n)) eqn:E.
      * eapply run_iff; [|apply run_fail]. rewrite D. apply andb_true_iff in E as (E1 & E2). rewrite negb_true_iff in E1, E2.
        apply Z.eqb_neq in E2. apply andb_false_iff in E1. split; [tauto|]. intros [Q|(-> & L)]; [lia|].
        destruct E1 as [E1|E1]; [discriminate|]. apply Z.leb_gt in E1. lia.
      * apply run_true. { rewrite D. apply andb_false_iff in E as [E|E]; rewrite negb_false_iff in E.
        - apply andb_true_iff in E as (-> & E). apply Z.leb_le in E. right. split; [auto|lia].
        - apply Z.eqb_eq in E. left. lia. }
        apply run_then; [apply run_emit|]. intros s Hs. destruct (value4 (Z.of_nat index) s) as (c & pos & Ev & A & B & _).
        unfold cbind. rewrite Ev. apply out_ok; [exact I|]. split; [reflexivity|]. cbn [set_code k_code]. lia.
Qed.
Lemma erase_callable y y' : erase y = erase y' -> callable (sy_body y) -> callable (sy_body y').
Proof. destruct y as [? ? []], y' as [? ? []]; cbn; intros E; try discriminate; auto. Qed.
Lemma run_call_id n id y : sym_at t0 id = Some y -> callable (sy_body y) -> run (takes (sy_body y) n) (call_id (Z.of_nat n) id).
Proof.
  intros Y C s Hs. unfold call_id. pose proof (shape_sym_at _ _ id (K_shape _ Hs)) as Q. rewrite Y in Q.
  destruct (sym_at (k_tbl s) id) as [z|]; cbn [option_map] in Q; [|discriminate].
  assert (Er : erase y = erase z) by congruence. clear Q.
  eapply out_iff; [|apply run_call_sym; [|exact Hs]]; [|].
  - split; apply takes_erase; [symmetry|]; auto.
  - eapply erase_callable; eauto.
Qed.

(** ** Variables *)
Definition readable (r : vref) : Prop :=
  match r with RGlobal id => gidx t0 id <> None | RConst id => cval t0 id <> None | _ => lidx t0 r <> None end.
Definition writable (r : vref) : Prop := match r with RConst _ => False | _ => True end.
Lemma var_same r s : K s -> lidx t0 r <> None -> exists v, var_of (k_tbl s) r = Some v.
Proof.
  intros Hs H. rewrite (shape_lidx _ _ r (K_shape _ Hs)) in H. unfold lidx in H. destruct (var_of (k_tbl s) r); [eauto|contradiction].
Qed.
Lemma gidx_same id s : K s -> gidx t0 id <> None -> exists a b i f g, sym_at (k_tbl s) id = Some (mkSym a b (SyGlobal i f g)).
Proof.
  intros Hs H. rewrite (shape_gidx _ _ id (K_shape _ Hs)) in H. unfold gidx in H.
  destruct (sym_at (k_tbl s) id) as [[a b c]|]; [|contradiction]. destruct c; try contradiction. eauto 8.
Qed.
Lemma run_push_int z : run True (push_int z).
Proof. unfold push_int. destruct (z =? 0); [apply run_emit_i|]. destruct (z =? 1); apply run_emit_i. Qed.
Lemma run_push_string i : run True (push_string i).
Proof. unfold push_string. destruct (_ <=? _); apply run_emit_i. Qed.
Lemma run_get r : readable r -> run True (get_ref r).
Proof.
  intros R s Hs. destruct r as [id|id|f i|f i]; unfold get_ref; cbn [readable] in R.
  - destruct (gidx_same _ _ Hs R) as (a & b & i & fl & g & ->). apply run_emit_i; auto.
  - rewrite (shape_cval _ _ id (K_shape _ Hs)) in R. unfold cval in R.
    destruct (sym_at (k_tbl s) id) as [[a b c]|]; [|contradiction]. destruct c; try contradiction.
    destruct c; [apply run_emit_i|apply run_push_int|apply run_emit_i|apply run_push_string]; auto.
  - destruct (var_same _ _ Hs R) as (v & ->). destruct (_ || _); apply run_emit_i; auto.
  - destruct (var_same _ _ Hs R) as (v & ->). destruct (_ || _); apply run_emit_i; auto.
Qed.
Lemma run_set r : readable r -> run (writable r) (set_ref r).
Proof.
  intros R s Hs. destruct r as [id|id|f i|f i]; unfold set_ref; cbn [readable writable] in *.
  - destruct (gidx_same _ _ Hs R) as (a & b & i & fl & g & ->). apply run_emit_i; auto.
  - apply out_no. auto.
  - destruct (var_same _ _ Hs R) as (v & ->). apply run_emit_i; auto.
  - destruct (var_same _ _ Hs R) as (v & ->). apply run_emit_i; auto.
Qed.
Definition has_field (g : tag) (f : text) : Prop := exists k, field_no t0 g f = Some k /\ k <= 255.
Lemma field_out g f s : K s -> has_field g f -> out True (need_field g f s) (fun _ s' => s' = s).
Proof.
  intros Hs (k & E & L). unfold need_field. rewrite <- (shape_field_no _ _ g f (K_shape _ Hs)), E.
  destruct (Z.leb_spec k 255); [|lia]. apply out_ok; auto.
Qed.

(** ** Expressions *)
Definition a_callee (id : nat) : Prop := exists y, sym_at t0 id = Some y /\ callable (sy_body y).
Fixpoint ready_e (e : texpr) : Prop :=
  let all := fix all (es : list texpr) : Prop := match es with [] => True | e :: es' => ready_e e /\ all es' end in
  match e with
  | TNull | TBool _ | TChar _ | TInt _ | TFloat _ | TStr _ => True
  | TId r _ => readable r
  | TDot e f _ => ready_e e /\ has_field (tag_of e) f
  | TCast e _ | TParen e => ready_e e
  | TUn o e _ => ready_e e /\ match o, e with UMinus, TInt z => z <> - 2^31 | _, _ => True end
  | TBin _ l r _ => ready_e l /\ ready_e r
  | TTern c a b _ => ready_e c /\ ready_e a /\ ready_e b
  | TCall f args _ => all args /\ reference_function t0 f <> None
  | TIndex a i getf setf _ => ready_e a /\ ready_e i /\ a_callee getf /\ match setf with Some f => a_callee f | None => True end
  | TNew id names args => all args /\ (exists nm fs, sym_at t0 id = Some (mkSym id nm (SyStruct true fs)) /\
      (names = [] \/ ((length args <= length names)%nat /\ Forall (fun x => In x (map fd_name fs)) (firstn (length args) names))))
  end.
Fixpoint readies (es : list texpr) : Prop := match es with [] => True | e :: es' => ready_e e /\ readies es' end.
Fixpoint fines (es : list texpr) : Prop := match es with [] => True | e :: es' => fine_e t0 e /\ fines es' end.
Fixpoint firsts (seen names : list text) (es : list texpr) {struct es} : Prop :=
  match es with
  | [] => True
  | e :: es' => match names with [] => True | x :: names' => (In x seen \/ fine_e t0 e) /\ firsts (x :: seen) names' es' end
  end.

Definition run_e (e : texpr) : Prop := ready_e e -> run (fine_e t0 e) (compile_expr e).

Lemma run_args es : Forall run_e es -> readies es -> forall i s, K s -> 
  out (fines es /\ (i + length es <= 255 \/ es = [])%nat) (seq_args (Z.of_nat i) (map compile_expr es) s) (fun n s' => n = Z.of_nat (i + length es) /\ extends s s').
Proof.
  induction 1 as [|e es H F IH]; intros R i s Hs; cbn [map seq_args length fines readies] in *.
  - apply out_ok; [auto|]. split; [f_equal; lia|apply extends_refl].
  - destruct (Z.leb_spec 255 (Z.of_nat i)) as [L|L]; [apply out_no; intros (_ & [X|X]); [lia|discriminate]|].
    eapply out_iff; [|eapply out_bind; [apply H; [apply R|exact Hs]|]].
    2: { cbn beta. intros _ s' X. replace (Z.of_nat i + 1) with (Z.of_nat (S i)) by lia.
         eapply out_post; [|apply IH; [apply R|eapply extends_K; eauto]]. cbn beta. intros n s2 (-> & Y). split; [f_equal; lia|]. eapply extends_trans; eauto. }
    split.
    + intros (A & B & C). split; [auto|]. left. destruct C as [C| ->]; [lia|]. cbn. lia.
    + intros ((A & B) & [C|C]); [|discriminate]. split; [auto|]. split; [auto|]. left. lia.
Qed.
Lemma run_all es : Forall run_e es -> readies es -> run (fines es) (seq_all (map compile_expr es)).
Proof.
  induction 1 as [|e es H F IH]; intros R; cbn [map seq_all fines readies] in *; [apply run_ret|].
  apply run_seq; [apply H|apply IH]; apply R.
Qed.

(** Which initialiser is taken for field [f] *)
Fixpoint chosen (f : text) (names : list text) (es : list texpr) {struct es} : Prop :=
  match es with
  | [] => True
  | e :: es' => match names with [] => True | x :: names' => if text_eqb x f then fine_e t0 e else chosen f names' es' end
  end.
Lemma run_pick f es : Forall run_e es -> readies es -> forall names, (length es <= length names)%nat -> run (chosen f names es) (pick f names (map compile_expr es)).
Proof.
  induction 1 as [|e es H F IH]; intros R names L; cbn [map readies length] in *; [destruct names; apply run_ret|].
  destruct names as [|x names]; cbn [length] in L; [lia|]. cbn [pick chosen]. destruct (text_eqb x f); [apply H; apply R|]. apply IH; [apply R|lia].
Qed.
Lemma run_fields fs names es : Forall run_e es -> readies es -> (length es <= length names)%nat ->
  run (Forall (fun f => chosen (fd_name f) names es) fs) (by_field fs names (map compile_expr es)).
Proof.
  intros H R L. induction fs as [|f fs IH]; cbn [by_field]; [apply run_true; [constructor|apply run_ret]|].
  eapply run_iff; [|apply run_seq; [apply run_pick; auto|exact IH]]. split; [intros (A & B); constructor; auto|intros A; inversion A; auto].
Qed.
Lemma firsts_chosen : forall es names seen, (length es <= length names)%nat ->
  firsts seen names es <-> (forall f, ~ In f seen -> In f (firstn (length es) names) -> chosen f names es).
Proof.
  induction es as [|e es IH]; intros names seen L; cbn [length] in *; [split; [intros _ f _ []|intros _; destruct names; exact I]|].
  destruct names as [|x names]; cbn [length firstn firsts chosen] in *; [lia|]. rewrite IH by lia. split.
  - intros (A & B) f N I. destruct (text_eqb x f) eqn:E.
    + apply text_eqb_eq in E as ->. tauto.
    + apply B; [|destruct I as [->|I]; [rewrite text_eqb_refl in E; discriminate|exact I]].
      intros [->|J]; [rewrite text_eqb_refl in E; discriminate|contradiction].
  - intros A. split.
    + destruct (in_dec (list_eq_dec Ascii.ascii_dec) x seen) as [I|N]; [auto|]. right. specialize (A x N (or_introl eq_refl)). rewrite text_eqb_refl in A. exact A.
    + intros f N I. assert (X : text_eqb x f = false) by (destruct (text_eqb x f) eqn:E; [apply text_eqb_eq in E as ->; exfalso; apply N; left; reflexivity|reflexivity]).
      specialize (A f (fun J => N (or_intror J)) (or_intror I)). rewrite X in A. exact A.
Qed.

Lemma run_fork op P1 P2 P3 m1 m2 m3 : run P1 m1 -> run P2 m2 -> run P3 m3 ->
  run (P1 /\ P2 /\ P3) (cbind m1 (fun _ => cbind (gen_jump op 0) (fun sc => cbind m2 (fun _ => cbind (gen_jump op_goto 0) (fun ex =>
    cbind here (fun h => cbind (patch sc h) (fun _ => cbind m3 (fun _ => cbind here (fun h' => patch ex h'))))))))).
Proof.
  intros H1 H2 H3 s Hs. eapply out_bind; [apply H1; exact Hs|]. cbn beta. intros _ s1 X1.
  eapply out_step; [apply jump_out|]. cbn beta. intros sc s2 (X2 & S2).
  pose proof (extends_trans _ _ _ X1 X2) as Y2. eapply out_bind; [apply H2; eapply extends_K; eauto|]. cbn beta. intros _ s3 X3.
  eapply out_step; [apply jump_out|]. cbn beta. intros ex s4 (X4 & S4). eapply out_step; [apply here_out|]. cbn beta. intros h s5 ->.
  pose proof (extends_trans _ _ _ Y2 (extends_trans _ _ _ X3 X4)) as Y4.
  eapply out_step; [apply patch_out; exact (slot_extends _ _ _ X4 (slot_extends _ _ _ X3 S2))|]. cbn beta. intros _ s6 X6.
  pose proof (extends_trans _ _ _ Y4 X6) as Y6. eapply out_last; [apply H3; eapply extends_K; eauto|]. cbn beta. intros _ s7 X7.
  eapply out_step; [apply here_out|]. cbn beta. intros h' s8 ->. eapply out_post; [|apply patch_out; exact (slot_extends _ _ _ X7 (slot_extends _ _ _ X6 S4))].
  cbn beta. intros _ s9 X9. eapply extends_trans; [exact Y6|]. eapply extends_trans; eauto.
Qed.

Lemma fine_call f args g : fine_e t0 (TCall f args g) <-> fines args /\ call_fine t0 f (length args).
Proof. cbn [fine_e]. assert (E : forall l, (fix all (es : list texpr) : Prop := match es with [] => True | e :: es' => fine_e t0 e /\ all es' end) l <-> fines l) by (induction l as [|e l IH]; cbn; [tauto|rewrite IH; tauto]). rewrite E. tauto. Qed.
Lemma ready_call f args g : ready_e (TCall f args g) <-> readies args /\ reference_function t0 f <> None.
Proof. cbn [ready_e]. assert (E : forall l, (fix all (es : list texpr) : Prop := match es with [] => True | e :: es' => ready_e e /\ all es' end) l <-> readies l) by (induction l as [|e l IH]; cbn; [tauto|rewrite IH; tauto]). rewrite E. tauto. Qed.
Lemma fine_new id names args : fine_e t0 (TNew id names args) <-> match names with [] => fines args | _ => firsts [] names args end.
Proof.
  cbn [fine_e]. destruct names as [|x names].
  - induction args as [|e l IH]; cbn; [tauto|rewrite IH; tauto].
  - generalize (x :: names). intros ns. generalize (@nil text). revert ns. induction args as [|e l IH]; intros ns seen; cbn; [tauto|].
    destruct ns; [tauto|]. rewrite IH. tauto.
Qed.
Lemma ready_new id names args : ready_e (TNew id names args) <-> readies args /\ (exists nm fs, sym_at t0 id = Some (mkSym id nm (SyStruct true fs)) /\
      (names = [] \/ ((length args <= length names)%nat /\ Forall (fun x => In x (map fd_name fs)) (firstn (length args) names)))).
Proof. cbn [ready_e]. assert (E : forall l, (fix all (es : list texpr) : Prop := match es with [] => True | e :: es' => ready_e e /\ all es' end) l <-> readies l) by (induction l as [|e l IH]; cbn; [tauto|rewrite IH; tauto]). rewrite E. tauto. Qed.

Lemma call_named f n : reference_function t0 f <> None -> (n <= 255)%nat ->
  run (call_fine t0 f n) (fun s => match reference_function (k_tbl s) f with Some y => call_sym (Z.of_nat n) (sy_body y) s | None => CFail s end).
Proof.
  intros R L s Hs. pose proof (shape_reffun _ _ f (K_shape _ Hs)) as Q.
  destruct (reference_function t0 f) as [y|] eqn:Y; [|contradiction]. destruct (reference_function (k_tbl s) f) as [z|] eqn:Z0; cbn [option_map] in Q; [|discriminate].
  assert (Er : erase y = erase z) by congruence. clear Q.
  assert (C : callable (sy_body z)). { pose proof (find_some _ _ Z0) as (_ & B). unfold is_function in B. destruct (sy_body z); try discriminate; exact I. }
  eapply out_iff; [|apply run_call_sym; [exact C|exact Hs]]. unfold call_fine. split.
  - intros T. split; [exact L|]. exists y. split; [apply function_at; exact Y|]. eapply takes_erase; [symmetry|]; eauto.
  - intros (_ & y' & Fy & T). apply function_at in Fy. assert (y' = y) as -> by congruence. eapply takes_erase; eauto.
Qed.

Lemma run_call f args : Forall run_e args -> readies args -> reference_function t0 f <> None ->
  run (fines args /\ call_fine t0 f (length args)) (compile_call f args).
Proof.
  intros H R F s Hs. unfold compile_call.
  destruct (Nat.le_gt_cases (length args) 255) as [L|L].
  - eapply out_iff; [|eapply out_bind; [apply (run_args _ H R 0 s Hs)|]].
    2: { cbn beta. intros n s1 (-> & X). eapply out_post; [|apply call_named; [exact F|exact L|eapply extends_K; eauto]].
         cbn beta. intros _ s2 Y. eapply extends_trans; eauto. }
    cbn [Nat.add]. tauto.
  - destruct (run_args _ H R 0 s Hs) as [((_ & N) & _)|(_ & s' & E)].
    { cbn [Nat.add] in N. destruct N as [N| ->]; [lia|]. cbn in L. lia. }
    change (Z.of_nat 0) with 0 in E. unfold cbind. rewrite E. apply out_no. intros (_ & X & _). lia.
Qed.

Lemma run_one l r P (op : instr) op1 : run (fine_e t0 l) (compile_expr l) -> run (fine_e t0 r) (compile_expr r) -> (P <-> fine_e t0 l /\ fine_e t0 r) ->
  run P (cbind (compile_expr l) (fun _ => if is_one r then emit_i op1 else cbind (compile_expr r) (fun _ => emit_i op))).
Proof.
  intros A B E. apply (run_iff (fine_e t0 l /\ fine_e t0 r)); [tauto|]. apply run_seq; [exact A|]. destruct (is_one r) eqn:O.
  - apply run_true; [|apply run_emit_i]. destruct r; try discriminate. exact I.
  - apply run_then; [exact B|apply run_emit_i].
Qed.
Lemma run_two l r P m : run (fine_e t0 l) (compile_expr l) -> run (fine_e t0 r) (compile_expr r) -> (P <-> fine_e t0 l /\ fine_e t0 r) -> run True m ->
  run P (cbind (compile_expr l) (fun _ => cbind (compile_expr r) (fun _ => m))).
Proof. intros A B E C. apply (run_iff (fine_e t0 l /\ fine_e t0 r)); [tauto|]. apply run_seq; [exact A|]. apply run_then; auto. Qed.
Lemma id_takes id y n : sym_at t0 id = Some y -> id_fine t0 id n <-> takes (sy_body y) n.
Proof.
  intros Y. unfold id_fine. split.
  - intros (nm & b & D & T). apply denotes_at in D. rewrite Y in D. injection D as ->. exact T.
  - intros T. pose proof (find_some _ _ Y) as (_ & E). apply Nat.eqb_eq in E. exists (sy_name y), (sy_body y). split; [|exact T].
    apply denotes_at. rewrite Y. destruct y; cbn in *; subst; reflexivity.
Qed.
Lemma run_callee id n : a_callee id -> run (id_fine t0 id n) (call_id (Z.of_nat n) id).
Proof.
  intros (y & Y & C). eapply run_iff; [|apply run_call_id; eauto]. symmetry. apply id_takes. exact Y.
Qed.

Theorem run_expr e : run_e e.
Proof.
  induction e using texpr_ind'; unfold run_e in *; intros R.
  all: try (apply run_true; [exact I|]; cbn [compile_expr]; first [apply run_emit_i|apply run_push_int|apply run_push_string]; fail).
  all: cbn [ready_e] in R.
  - apply run_true; [exact I|]. apply run_get. exact R.
  - apply (proj1 (ready_call f args t)) in R as (R & F). eapply run_iff; [symmetry; apply fine_call|].
    change (compile_expr (TCall f args t)) with (cbind (seq_args 0 (map compile_expr args)) (fun n => cbind (fun s => match reference_function (k_tbl s) f with Some y => call_sym n (sy_body y) s | None => CFail s end) (fun _ => emit_i IGetRetval))).
    assert (X : run (fines args /\ call_fine t0 f (length args)) (cbind (compile_call f args) (fun _ => emit_i IGetRetval))) by (apply run_then; [apply run_call; auto|apply run_emit_i]).
    intros s Hs. specialize (X s Hs). unfold compile_call, cbind in *. destruct (seq_args 0 _ s); exact X.
  - destruct R as (Rl & Rr). specialize (IHe1 Rl). specialize (IHe2 Rr).
    assert (D : fine_e t0 (TBin o e1 e2 t) <-> fine_e t0 e1 /\ fine_e t0 e2) by reflexivity.
    destruct o; cbn [compile_expr binop_of]; try (apply run_one; assumption); try (apply run_two; [assumption..|apply run_emit_i]).
    + apply run_two; auto. apply run_then; apply run_emit_i.
    + eapply run_iff; [|apply (run_fork op_gotoz _ _ True _ _ (emit_i IPushFalse) IHe1 IHe2 (run_emit_i _))]. rewrite D. tauto.
    + eapply run_iff; [|apply (run_fork op_gotoz _ True _ _ (emit_i IPushTrue) _ IHe1 (run_emit_i _) IHe2)]. rewrite D. tauto.
  - destruct R as (R & M). specialize (IHe R). destruct o; cbn [compile_expr].
    + assert (X : run (fine_e t0 e) (cbind (compile_expr e) (fun _ => cbind (emit_i (IPushInt (-1))) (fun _ => emit_i (IBin OMul)))))
        by (apply run_then; [exact IHe|apply run_then; apply run_emit_i]).
      destruct e; try exact X. destruct (Z.eqb_spec z (- 2^31)); [contradiction|]. apply run_true; [exact I|apply run_emit_i].
    + apply run_then; [exact IHe|apply run_emit_i].
  - apply IHe. exact R.
  - apply (proj1 (ready_new t ns args)) in R as (R & nm & fs & Y & N). eapply run_iff; [symmetry; apply fine_new|]. intros s Hs. cbn [compile_expr].
    pose proof (shape_sym_at _ _ t (K_shape _ Hs)) as Q. rewrite Y in Q.
    destruct (sym_at (k_tbl s) t) as [[zi zn zb]|]; cbn in Q; [|discriminate]. injection Q as <- <- Q.
    destruct zb; cbn in Q; try discriminate. injection Q as <- <-. revert s Hs. apply run_then; [|apply run_emit_i].
    destruct ns as [|x ns]; [apply run_all; auto|]. destruct N as [N|(L & N)]; [discriminate|].
    eapply run_iff; [|apply run_fields; [exact H|exact R|exact L]]. rewrite firsts_chosen by exact L. split.
    + intros A f _ I. rewrite Forall_forall in N. apply N in I. apply in_map_iff in I as (fd & <- & I). rewrite Forall_forall in A. apply A. exact I.
    + intros A. apply Forall_forall. intros fd I. destruct (in_dec (list_eq_dec Ascii.ascii_dec) (fd_name fd) (firstn (length args) (x :: ns))) as [J|J]; [apply A; auto|].
      clear - J L. revert J L. generalize (x :: ns). induction args as [|e es IH]; intros names J L; [destruct names; exact I|].
      destruct names as [|y names]; cbn [length] in L; [lia|]. cbn [chosen]. cbn [firstn length] in J. destruct (text_eqb y (fd_name fd)) eqn:E; [apply text_eqb_eq in E; exfalso; apply J; left; exact E|].
      apply IH; [intros X; apply J; right; exact X|lia].
  - apply IHe. exact R.
  - destruct R as (R & F). specialize (IHe R). cbn [compile_expr]. intros s Hs. eapply out_step; [apply field_out; [exact Hs|exact F]|]. cbn beta. intros k s1 ->.
    revert s Hs. apply run_then; [exact IHe|apply run_emit_i].
  - destruct R as (Ra & Ri & G & _). specialize (IHe1 Ra). specialize (IHe2 Ri). cbn [compile_expr fine_e].
    apply run_seq; [exact IHe1|]. apply run_seq; [exact IHe2|]. apply run_then; [apply (run_callee _ 2 G)|apply run_emit_i].
  - destruct R as (Rc & Ra & Rb). cbn [compile_expr fine_e]. apply (run_fork op_gotoz); auto.
Qed.
End Gen.
