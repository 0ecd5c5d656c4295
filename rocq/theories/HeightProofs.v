(** * Compiled code has stack heights *)
From Verif Require Import Base Token Values Code Syntax Symbols Compile Layout LayoutProofs CompileProofs TableInv HeightSpec.
Local Open Scope nat_scope.

Section Seg.
Variable t : tbl.
Variable C : program.
Variable F : nat -> Z -> Prop.
Variable K : nat -> Prop.
Hypothesis HK : forall y i a l r, In y (tb_syms t) -> sy_body y = SyFunc i a l r -> K i /\ (Z.of_nat i < 2^32)%Z.
Hypothesis HX : forall y i a va r c, In y (tb_syms t) -> sy_body y = SyForeign i a va r c -> (Z.of_nat i < 2^32)%Z.
Hypothesis HF : forall id fs, sfields t id = Some fs -> length fs <= 255.

Definition callee_ok (i : instr) : Prop := match i with ICall _ f => K (Z.to_nat f) | ICallF n f => foreign_takes t (Z.to_nat f) (Z.to_nat n) | _ => True end.

(** The code from [a] to [b] takes the stack from height [h] to [h']; it may
    leave to the points of [X]; it contains the functions [L]. *)
Definition tseg (X : Z -> nat -> Prop) (L : list nat) (a b : Z) (h h' : nat) : Prop :=
  exists m : Z -> nat -> Prop,
    (forall pc k, m pc k -> (a <= pc < b)%Z) /\
    (forall pc k k', m pc k -> m pc k' -> k = k') /\
    (m a h \/ (a = b /\ h = h')) /\
    (forall pc k, m pc k -> exists i next, decode C pc = Ok (i, next) /\ pops i <= k /\ callee_ok i /\
       forall pc', In pc' (succs i next) ->
         m pc' (k - pops i + pushes i) \/ (pc' = b /\ k - pops i + pushes i = h') \/ X pc' (k - pops i + pushes i)) /\
    Forall (fun f => exists e, F f e /\ m e 0) L.

Lemma seg_nil X a h : tseg X [] a a h h.
Proof. exists (fun _ _ => False). repeat split; try tauto; constructor. Qed.
Lemma seg_seq X L1 L2 a m b h h1 h2 : tseg X L1 a m h h1 -> tseg X L2 m b h1 h2 -> (a <= m)%Z -> (m <= b)%Z -> tseg X (L1 ++ L2) a b h h2.
Proof.
  intros (m1 & D1 & U1 & I1 & S1 & F1) (m2 & D2 & U2 & I2 & S2 & F2) La Lb. exists (fun pc k => m1 pc k \/ m2 pc k). split; [|split; [|split; [|split]]].
  - intros pc k [H|H]; [apply D1 in H|apply D2 in H]; lia.
  - intros pc k k' [H|H] [H'|H']; eauto; exfalso.
    + apply D1 in H. apply D2 in H'. lia.
    + apply D2 in H. apply D1 in H'. lia.
  - destruct I1 as [I1|(-> & ->)]; auto. destruct I2 as [I2|(-> & ->)]; auto.
  - intros pc k [H|H].
    + destruct (S1 _ _ H) as (i & n & A & B & Cc & D). exists i, n. split; auto. split; auto. split; auto. intros pc' I. destruct (D pc' I) as [E|[(E1 & E2)|E]]; auto.
      subst pc'. rewrite E2. destruct I2 as [I2|(-> & ->)]; auto.
    + destruct (S2 _ _ H) as (i & n & A & B & Cc & D). exists i, n. split; auto. split; auto. split; auto. intros pc' I. destruct (D pc' I) as [E|[E|E]]; auto.
  - apply Forall_app. split; (eapply Forall_impl; [|eassumption]); cbn; intros f (e & A & B); eauto.
Qed.
Lemma seg_weak (X Y : Z -> nat -> Prop) L L' a b h h' : tseg X L a b h h' -> (forall pc k, X pc k -> Y pc k) -> incl L' L -> tseg Y L' a b h h'.
Proof.
  intros (m & D & U & I & S & Fn) W Il. exists m. split; [|split; [|split; [|split]]]; auto.
  - intros pc k H. destruct (S _ _ H) as (i & n & A & B & Cc & E). exists i, n. split; auto. split; auto. split; auto. intros pc' J. destruct (E pc' J) as [?|[?|?]]; auto.
  - apply Forall_forall. intros f If. apply (proj1 (Forall_forall _ _) Fn), Il, If.
Qed.
Lemma seg_absorb X L a b h h' : tseg (fun pc k => X pc k \/ (pc = b /\ k = h') \/ (pc = a /\ k = h)) L a b h h' -> tseg X L a b h h'.
Proof.
  intros (m & D & U & I & S & Fn). exists m. split; [|split; [|split; [|split]]]; auto.
  intros pc k H. destruct (S _ _ H) as (i & n & A & B & Cc & E). exists i, n. split; auto. split; auto. split; auto. intros pc' J.
  destruct (E pc' J) as [?|[?|[?|[?|(E1 & E2)]]]]; auto. subst pc'. rewrite E2. destruct I as [I|(-> & ->)]; auto.
Qed.
Lemma seg_entry X L f a b h' : tseg X L a b 0 h' -> F f a -> (a < b)%Z -> tseg X (f :: L) a b 0 h'.
Proof.
  intros (m & D & U & I & S & Fn) Hf Lt. exists m. split; [|split; [|split; [|split]]]; auto. constructor; auto. exists a. split; auto. destruct I as [I|(E & _)]; [exact I|lia].
Qed.
Lemma seg_point X a b h h' i : decode C a = Ok (i, b) -> pops i <= h -> callee_ok i ->
  (forall pc', In pc' (succs i b) -> (pc' = b /\ h - pops i + pushes i = h') \/ X pc' (h - pops i + pushes i)) -> tseg X [] a b h h'.
Proof.
  intros D P Ck S. pose proof (decode_range _ _ _ _ D). exists (fun pc k => pc = a /\ k = h). split; [|split; [|split; [|split]]]; auto.
  - intros pc k (-> & ->). lia.
  - intros pc k k' (-> & ->) (_ & ->). reflexivity.
  - intros pc k (-> & ->). exists i, b. split; auto 7.
Qed.
Lemma seg_instr X a b h h' i : at_i C a i b -> succs (norm i) b = [b] -> pops (norm i) <= h -> callee_ok (norm i) -> h' = h - pops (norm i) + pushes (norm i) -> tseg X [] a b h h'.
Proof. intros D E P Ck ->. eapply seg_point; eauto. rewrite E. intros pc' [<-|[]]. auto. Qed.
Lemma seg_end X a b h h' i : at_i C a i b -> succs (norm i) b = [] -> pops (norm i) <= h -> callee_ok (norm i) -> tseg X [] a b h h'.
Proof. intros D E P Ck. eapply seg_point; eauto. rewrite E. intros pc' []. Qed.
Lemma seg_jmp (X : Z -> nat -> Prop) a x b h h' : jmp C a x b -> X x h -> tseg X [] a b h h'.
Proof. intros (k & D & E) H. eapply seg_point; eauto; cbn; auto; [lia|]. intros pc' [<-|[]]. right. rewrite E. replace (h - 0 + 0) with h by lia. exact H. Qed.
Lemma seg_jz (X : Z -> nat -> Prop) a x b h : jz C a x b -> X x h -> tseg X [] a b (S h) h.
Proof.
  intros (k & D & E) H. eapply seg_point; eauto; cbn; auto; [lia|]. replace (h - 0 + 0) with h by lia. intros pc' [<-|[<-|[]]]; auto. right. rewrite E. exact H.
Qed.
Lemma jmp_lt a x b : jmp C a x b -> (a < b)%Z.
Proof. intros (k & D & _). apply decode_range in D. lia. Qed.
Lemma jz_lt a x b : jz C a x b -> (a < b)%Z.
Proof. intros (k & D & _). apply decode_range in D. lia. Qed.
Lemma at_lt a i b : at_i C a i b -> (a < b)%Z.
Proof. intros D. apply decode_range in D. lia. Qed.

Lemma in_syms_ref f y : reference_function t f = Some y -> In y (tb_syms t).
Proof. unfold reference_function. intros H. apply find_some in H. tauto. Qed.
Lemma seg_call X n y a b h : at_call C (Z.of_nat n) y a b -> (forall s, y = Some s -> In s (tb_syms t)) -> tseg X [] a b (n + h) h.
Proof.
  intros (s & i & -> & Ci & A) In0. pose proof (In0 s eq_refl) as Is. destruct (sy_body s) eqn:B; try discriminate; cbn [call_instr] in Ci; [|destruct (arity_ok _ _ _) eqn:Ar; [|discriminate Ci]]; injection Ci as <-.
  - destruct (HK _ _ _ _ _ Is B) as (Hk & Lt). eapply seg_instr; [exact A|reflexivity| | |]; cbn [norm pops pushes callee_ok]; try lia.
    rewrite Z.mod_small, Nat2Z.id by lia. exact Hk.
  - pose proof (HX _ _ _ _ _ _ Is B). eapply seg_instr; [exact A|reflexivity| | |]; cbn [norm pops pushes callee_ok]; auto; try lia.
    rewrite Z.mod_small, !Nat2Z.id by lia. exists s, args, varargs, ret, callee. split; auto. split; auto.
    unfold arity_ok in Ar. apply orb_true_iff in Ar as [Ar|Ar]; [left|right; apply andb_true_iff in Ar as (-> & Ar); split; auto]; lia.
Qed.
Lemma call_lt n y a b : at_call C n y a b -> (a < b)%Z.
Proof. intros (s & i & _ & _ & A). eapply at_lt; eauto. Qed.

Lemma seg_seq0 X a m b h h1 h2 : tseg X [] a m h h1 -> tseg X [] m b h1 h2 -> (a <= m)%Z -> (m <= b)%Z -> tseg X [] a b h h2.
Proof. intros A B La Lb. exact (seg_seq X [] [] _ _ _ _ _ _ A B La Lb). Qed.

Lemma seg_ref X r g a b h : at_ref t C r a b -> plain_e t (TId r g) -> tseg X [] a b h (S h).
Proof.
  destruct r as [id|id|f i|f i]; cbn [at_ref plain_e].
  - intros (i & _ & A) _. eapply seg_instr; [exact A| | | |]; cbn; auto; lia.
  - intros (c & E & A) P. destruct c.
    + destruct b0; (eapply seg_instr; [exact A| | | |]; cbn; auto; lia).
    + unfold int_instr in A. destruct (z =? 0)%Z; [|destruct (z =? 1)%Z]; (eapply seg_instr; [exact A| | | |]; cbn; auto; lia).
    + eapply seg_instr; [exact A| | | |]; cbn; auto; lia.
    + destruct A as (_ & A). eapply seg_instr; [exact (A (P _ E))| | | |]; cbn; auto; lia.
  - intros (k & _ & A) _. destruct (_ || _)%bool; (eapply seg_instr; [exact A| | | |]; cbn; auto; lia).
  - intros (k & _ & A) _. destruct (_ || _)%bool; (eapply seg_instr; [exact A| | | |]; cbn; auto; lia).
Qed.

Definition eseg (l : Z -> Z -> Prop) : Prop := forall a b h X, l a b -> tseg X [] a b h (S h).
Lemma segs_seq ls : Forall eseg ls -> Forall ranged ls -> forall X a b h, lay_seq ls a b -> tseg X [] a b h (length ls + h).
Proof.
  intros Fe Rg X. induction Fe as [|l ls El _ IH]; intros a b h Q; cbn in Q; [subst; apply seg_nil|]. inversion Rg as [|? ? Rl Rls]; subst.
  destruct Q as (m & Q1 & Q2). replace (length (l :: ls) + h) with (length ls + S h) by (cbn; lia). pose proof (Rl _ _ Q1). pose proof (seq_range _ Rls _ _ Q2). eapply seg_seq0; [apply El; exact Q1|apply IH; auto|lia|lia].
Qed.
Lemma segs_pick f (names : list text) (ls : list (Z -> Z -> Prop)) : Forall eseg ls -> In f (map fst (combine names ls)) -> forall X a b h, lay_pick f names ls a b -> tseg X [] a b h (S h).
Proof.
  intros Fe. revert names. induction Fe as [|l ls El _ IH]; intros [|nm names]; cbn; try tauto. intros I X a b h. destruct (text_eqb nm f) eqn:E; [apply El|].
  apply IH. destruct I as [->|I]; auto. rewrite text_eqb_refl in E. discriminate.
Qed.
Lemma segs_fields fs names (ls : list (Z -> Z -> Prop)) : Forall eseg ls -> Forall ranged ls -> Forall (fun f => In (fd_name f) (map fst (combine names ls))) fs ->
  forall X a b h, lay_fields fs names ls a b -> tseg X [] a b h (length fs + h).
Proof.
  intros Fe Rg Fi X. induction Fi as [|f fs Hf _ IH]; intros a b h Q; cbn in Q; [subst; apply seg_nil|]. destruct Q as (m & Q1 & Q2).
  replace (length (f :: fs) + h) with (length fs + S h) by (cbn; lia). pose proof (pick_range _ _ _ Rg _ _ Q1). pose proof (fields_range _ _ _ Rg _ _ Q2). eapply seg_seq0; [eapply segs_pick; eauto|apply IH; auto|lia|lia].
Qed.

(** facts about the order of addresses *)
Ltac fresh_fact P := lazymatch goal with _ : P |- _ => fail | _ => idtac end.
Ltac rg := repeat match goal with
  | H : lay _ _ _ ?a ?b |- _ => fresh_fact (a < b)%Z; pose proof (lay_range _ _ _ _ _ H)
  | H : jmp _ ?a _ ?b |- _ => fresh_fact (a < b)%Z; pose proof (jmp_range _ _ _ _ H)
  | H : jz _ ?a _ ?b |- _ => fresh_fact (a < b)%Z; pose proof (jz_range _ _ _ _ H)
  | H : at_i _ ?a _ ?b |- _ => fresh_fact (a < b)%Z; pose proof (at_range _ _ _ _ H)
  | H : at_call _ _ _ ?a ?b |- _ => fresh_fact (a < b)%Z; pose proof (call_range _ _ _ _ _ H)
  | H : at_set _ _ _ ?a ?b |- _ => fresh_fact (a < b)%Z; pose proof (set_range _ _ _ _ _ H)
  | H : lay_rhs _ _ _ _ _ ?a ?b |- _ => fresh_fact (a < b)%Z; pose proof (rhs_range _ _ _ _ _ _ _ H)
  | H : lay_seq (map (lay _ _) _) ?a ?b |- _ => fresh_fact (a <= b)%Z; pose proof (seq_range _ (lays_ranged _ _ _) _ _ H)
  | H : lay_stmt _ _ _ _ _ ?a ?b _ |- _ => fresh_fact (a <= b)%Z; pose proof (proj1 (stmt_range _ _ _ _ _ _ _ _ H))
  end; lia.
(** a last instruction *)
Ltac ins A := eapply seg_instr; [exact A|reflexivity|cbn; lia|exact I|cbn; lia].

Lemma all_forall {A} (P : A -> Prop) l : all_of (map P l) <-> Forall P l.
Proof. induction l; cbn; split; intros H; [constructor|exact I| |]; [destruct H; constructor; [|apply IHl]; auto|inversion H; split; [|apply IHl]; auto]. Qed.

Lemma seg_int X z a b h : at_i C a (int_instr z) b -> tseg X [] a b h (S h).
Proof. unfold int_instr. intros A. destruct (z =? 0)%Z; [|destruct (z =? 1)%Z]; ins A. Qed.

Lemma seg_bin o inc one l r X a b h : eseg l -> eseg r -> ranged l -> ranged r -> inc = IAdd1 \/ inc = ISub1 -> lay_bin C o inc one l r a b -> tseg X [] a b h (S h).
Proof.
  intros L R Rl Rr Hi (m & A & B). pose proof (Rl _ _ A). destruct one.
  - pose proof (at_range _ _ _ _ B). eapply seg_seq0; [apply L; exact A| |lia|lia]. destruct Hi as [->| ->]; ins B.
  - destruct B as (m' & B & D). pose proof (Rr _ _ B). pose proof (at_range _ _ _ _ D).
    eapply seg_seq0; [apply L; exact A| |lia|lia]. eapply seg_seq0; [apply R; exact B| |lia|lia]. ins D.
Qed.

Lemma expr_seg e : plain_e t e -> eseg (lay t C e).
Proof.
  induction e using texpr_ind'; intros P a0 b0 h X L; cbn [lay] in L; cbn [plain_e] in P; try (ins L); try (apply IHe; auto; fail); try (eapply seg_int; exact L).
  - destruct b; ins L.
  - destruct L as (_ & L). specialize (L P). ins L.
  - exact (seg_ref X r t0 _ _ h L P).
  - (* call *) destruct L as (m1 & m2 & L & L1 & L2). apply all_forall in P.
    assert (Fe : Forall eseg (map (lay t C) args)) by (apply Forall_map; rewrite Forall_forall in *; auto).
    pose proof (segs_seq _ Fe (lays_ranged _ _ _) X _ _ h L) as S1. rewrite map_length in S1.
    eapply seg_seq0; [exact S1| |rg|rg]. eapply seg_seq0; [eapply seg_call; [exact L1|apply in_syms_ref]| |rg|rg]. ins L2.
  - (* binary *) destruct P as (P1 & P2). specialize (IHe1 P1). specialize (IHe2 P2). pose proof (lay_range t C e1) as R1. pose proof (lay_range t C e2) as R2.
    destruct o; cbn [binop_of] in L; try (eapply seg_bin; [| | | | |exact L]; auto).
    + destruct L as (m1 & m2 & A & B & D). eapply seg_seq0; [apply IHe1; exact A| |rg|rg]. eapply seg_seq0; [apply IHe2; exact B| |rg|rg]. ins D.
    + destruct L as (m1 & m2 & m3 & A & B & D & E). eapply seg_seq0; [apply IHe1; exact A| |rg|rg]. eapply seg_seq0; [apply IHe2; exact B| |rg|rg].
      eapply seg_seq0 with (h1 := S h); [ins D| |rg|rg]. ins E.
    + destruct L as (m1 & m2 & m3 & m4 & A & Jz & B & Jm & D). apply seg_absorb.
      assert (S1 : forall Y : Z -> nat -> Prop, Y b0 (S h) -> tseg Y [] a0 m4 h h).
      { intros Y Hy. apply seg_absorb. eapply seg_seq0; [apply IHe1; exact A| |rg|rg]. eapply seg_seq0; [eapply seg_jz; [exact Jz|auto]| |rg|rg].
        eapply seg_seq0; [apply IHe2; exact B| |rg|rg]. eapply seg_jmp; [exact Jm|auto]. }
      eapply seg_seq0; [apply S1; auto| |rg|rg]. ins D.
    + destruct L as (m1 & m2 & m3 & m4 & A & Jz & B & Jm & D). apply seg_absorb.
      assert (S1 : forall Y : Z -> nat -> Prop, Y b0 (S h) -> tseg Y [] a0 m4 h h).
      { intros Y Hy. apply seg_absorb. eapply seg_seq0; [apply IHe1; exact A| |rg|rg]. eapply seg_seq0; [eapply seg_jz; [exact Jz|auto]| |rg|rg].
        eapply seg_seq0 with (h1 := S h); [ins B| |rg|rg]. eapply seg_jmp; [exact Jm|auto]. }
      eapply seg_seq0; [apply S1; auto| |rg|rg]. apply IHe2. exact D.
  - (* unary *) specialize (IHe P). destruct o.
    + assert (W : (exists m1 m2, lay t C e a0 m1 /\ at_i C m1 (IPushInt (-1)) m2 /\ at_i C m2 (IBin OMul) b0) -> tseg X [] a0 b0 h (S h)).
      { intros (m1 & m2 & A & B & D). eapply seg_seq0; [apply IHe; exact A| |rg|rg]. eapply seg_seq0 with (h1 := S (S h)); [ins B| |rg|rg]. ins D. }
      destruct e; try exact (W L). ins L.
    + destruct L as (m & A & B). eapply seg_seq0; [apply IHe; exact A| |rg|rg]. ins B.
  - (* new *) destruct L as (fs & m & E & L & A). destruct P as (P & Q). specialize (Q _ E). apply all_forall in P. pose proof (HF _ _ E) as Hf.
    assert (Fe : Forall eseg (map (lay t C) args)) by (apply Forall_map; rewrite Forall_forall in *; auto).
    assert (S1 : tseg X [] a0 m h (length fs + h) /\ (a0 <= m)%Z).
    { destruct ns.
      - split; [|rg]. rewrite <- Q. pose proof (segs_seq _ Fe (lays_ranged _ _ _) X _ _ h L) as S1. rewrite map_length in S1. exact S1.
      - split; [|eapply fields_range; [apply lays_ranged|exact L]]. eapply segs_fields; eauto; [apply lays_ranged|].
        eapply Forall_impl; [|exact Q]. intros f If. apply in_map_iff in If as ((x & y) & Ex & If). apply in_map_iff. exists (x, lay t C y). split; auto.
        revert If. generalize (t1 :: ns) as names. clear. intros names. revert names. induction args as [|e args IH]; intros [|n names]; cbn; try tauto. intros [[= -> ->]|If]; auto. }
    destruct S1 as (S1 & Le). eapply seg_seq0; [exact S1| |lia|rg]. eapply seg_instr; [exact A|reflexivity| |exact I|]; cbn [norm pops pushes]; rewrite Z.mod_small, Nat2Z.id by lia; lia.
  - (* dot *) destruct L as (m & k & _ & A & B). eapply seg_seq0; [apply IHe; [exact P|exact A]| |rg|rg]. ins B.
  - (* index *) destruct L as (m1 & m2 & m3 & A & B & D & E). destruct P as (P1 & P2). eapply seg_seq0; [apply IHe1; [exact P1|exact A]| |rg|rg].
    eapply seg_seq0; [apply IHe2; [exact P2|exact B]| |rg|rg]. eapply seg_seq0 with (h1 := h); [|ins E|rg|rg].
    apply (seg_call X 2) with (h := h) in D; [exact D|]. intros y Ey. apply sym_at_in in Ey. tauto.
  - (* conditional *) destruct P as (P1 & P2 & P3). destruct L as (m1 & m2 & m3 & m4 & A & Jz & B & Jm & D). apply seg_absorb.
    assert (S1 : forall Y : Z -> nat -> Prop, Y b0 (S h) -> tseg Y [] a0 m4 h h).
    { intros Y Hy. apply seg_absorb. eapply seg_seq0; [apply IHe1; [exact P1|exact A]| |rg|rg]. eapply seg_seq0; [eapply seg_jz; [exact Jz|auto]| |rg|rg].
      eapply seg_seq0; [apply IHe2; [exact P2|exact B]| |rg|rg]. eapply seg_jmp; [exact Jm|auto]. }
    eapply seg_seq0; [apply S1; auto| |rg|rg]. exact (IHe3 P3 _ _ _ _ D).
Qed.

Lemma rhs_seg op l r X a b h : plain_e t l -> plain_e t r -> lay_rhs t C op l r a b -> tseg X [] a b h (S h).
Proof.
  intros Pl Pr. unfold lay_rhs. pose proof (expr_seg _ Pl) as Sl. pose proof (expr_seg _ Pr) as Sr. pose proof (lay_range t C l) as Rl. pose proof (lay_range t C r) as Rr.
  destruct (compound_op op) as [[]|]; intros L; try (eapply seg_bin; [| | | | |exact L]; auto); apply Sr; auto.
Qed.
Lemma set_seg r X a b h : at_set t C r a b -> tseg X [] a b (S h) h.
Proof. destruct r; cbn [at_set]; try contradiction; intros (k & _ & A); ins A. Qed.
Lemma assign_seg op l r X a b h : plain_e t l -> plain_e t r -> lay_assign t C op l r a b -> tseg X [] a b h h.
Proof.
  intros Pl Pr. unfold lay_assign. destruct l; try contradiction.
  - intros (m & A & B). eapply seg_seq0; [exact (rhs_seg _ _ _ _ _ _ _ Pl Pr A)|eapply set_seg; eauto|rg|rg].
  - intros (m1 & m2 & k & A & _ & B & D). eapply seg_seq0; [exact (rhs_seg _ _ _ _ _ _ _ Pl Pr A)| |rg|rg]. eapply seg_seq0; [eapply expr_seg; [|exact B]; exact Pl| |rg|rg]. ins D.
  - intros (m1 & m2 & m3 & f & _ & A & B & D & E). pose proof Pl as (P1 & P2). eapply seg_seq0; [eapply expr_seg; [|exact A]; exact P1| |rg|rg].
    eapply seg_seq0; [eapply expr_seg; [|exact B]; exact P2| |rg|rg]. eapply seg_seq0; [exact (rhs_seg _ _ _ _ _ _ _ Pl Pr D)| |rg|rg].
    apply (seg_call X 3) with (h := h) in E; [exact E|]. intros y Ey. apply sym_at_in in Ey. tauto.
Qed.

Definition exits (loop : bool) (T : bool -> Z -> Prop) (X : Z -> nat -> Prop) (h : nat) : Prop := loop = true -> forall k x, T k x -> X x h.
Lemma exits_more loop T X (Y : Z -> nat -> Prop) h : exits loop T X h -> (forall pc k, X pc k -> Y pc k) -> exits loop T Y h.
Proof. intros E W L k x H. apply W. eapply E; eauto. Qed.
Lemma no_exits T X h : exits false T X h.
Proof. intros E. discriminate. Qed.

Definition ids_of (s : tstmt) : list nat := map fst (bodies s).
Lemma block_seg ss (IH : Forall (fun s => forall loop T X a b p h, lay_stmt t C F T s a b p -> plain_s t loop s -> exits loop T X h -> tseg X (ids_of s) a b h h) ss) :
  forall loop T X a b p h, lay_stmts (map (lay_stmt t C F T) ss) a b p -> all_of (map (plain_s t loop) ss) -> exits loop T X h -> tseg X (map fst (flat_map bodies ss)) a b h h.
Proof.
  induction IH as [|s ss Hs _ IH]; intros loop T X a b p h L P E.
  - destruct L as (-> & _). apply seg_nil.
  - cbn [map lay_stmts] in L. destruct L as (m & p1 & p2 & A & B & _). cbn in P. destruct P as (P1 & P2). cbn [flat_map]. rewrite map_app.
    assert (R : sranged (lay_stmts (map (lay_stmt t C F T) ss))) by (apply stmts_range, Forall_map, Forall_forall; intros; apply stmt_range).
    pose proof (proj1 (R _ _ _ B)) as Rb. eapply seg_seq; [eapply Hs; eauto|eapply IH; eauto| |exact Rb]. apply (stmt_range _ _ _ _ _ _ _ _ A).
Qed.

Lemma stmt_seg s : forall loop T X a b p h, lay_stmt t C F T s a b p -> plain_s t loop s -> exits loop T X h -> tseg X (ids_of s) a b h h.
Proof.
  induction s using tstmt_ind'; intros loop T X a0 b0 p0 h L P Ex; cbn [lay_stmt] in L; cbn [plain_s] in P; unfold ids_of; cbn [bodies map];
    try (destruct L as (-> & _); apply seg_nil); try contradiction.
  - (* call *) destruct L as ((m & A & B) & _). apply all_forall in P.
    assert (Fe : Forall eseg (map (lay t C) a)) by (apply Forall_map; eapply Forall_impl; [|exact P]; intros; apply expr_seg; auto).
    pose proof (segs_seq _ Fe (lays_ranged _ _ _) X _ _ h A) as S1. rewrite map_length in S1. eapply seg_seq0; [exact S1| |rg|rg]. eapply seg_call; [exact B|apply in_syms_ref].
  - (* declaration *) destruct L as (L & _). unfold lay_assign in L. destruct L as (m & A & B). unfold lay_rhs in A. cbn in A.
    eapply seg_seq0; [eapply expr_seg; eauto|eapply set_seg; eauto|rg|rg].
  - (* assignment *) destruct L as (L & _). destruct P as (P1 & P2). exact (assign_seg _ _ _ _ _ _ _ P1 P2 L).
  - (* block *) eapply block_seg; eauto.
  - (* function *)
    destruct L as (_ & m & J & Fm & i & args & locals & ret & m1 & m2 & Sy & Ln & A & (q & B) & R).
    pose proof (jmp_range _ _ _ _ J) as G1. pose proof (at_range _ _ _ _ R) as G2. pose proof (proj1 (stmt_range _ _ _ _ _ _ _ _ B)) as G3.
    assert (G4 : (m <= m1)%Z) by (destruct (0 <? _); [apply at_range in A; lia|lia]).
    assert (S2 : forall Y h2, tseg Y (map fst (bodies s)) m b0 0 h2).
    { intros Y h2.
      assert (Sa : tseg Y [] m m1 0 (length locals)).
      { destruct (Nat.ltb_spec 0 (length locals)); [ins A|]. subst m1. replace (length locals) with 0 by lia. apply seg_nil. }
      pose proof (IHs false anywhere Y m1 m2 q (length locals) B P (no_exits _ _ _)) as Sb.
      assert (Sc : tseg Y [] m2 b0 (length locals) h2) by (eapply seg_end; [exact R|reflexivity|cbn; lia|exact I]).
      pose proof (seg_seq _ _ _ _ _ _ _ _ _ Sb Sc ltac:(lia) ltac:(lia)) as Sd. rewrite app_nil_r in Sd.
      exact (seg_seq _ _ _ _ _ _ _ _ _ Sa Sd ltac:(lia) ltac:(lia)). }
    apply seg_absorb. eapply (seg_seq _ [] (f :: map fst (bodies s))); [eapply seg_jmp; [exact J|auto]| |lia|lia]. apply seg_entry; [apply S2|exact Fm|lia].
  - (* if *) destruct P as (Pc & Pa & Pb). destruct b as [s2|].
    + destruct L as (m1 & m2 & m3 & m4 & p1 & p2 & A & J & B & Jm & D & _). apply seg_absorb. rewrite map_app.
      set (Y := fun pc k => X pc k \/ (pc = b0 /\ k = h) \/ (pc = a0 /\ k = h)).
      assert (S1 : tseg Y (ids_of s) a0 m4 h h).
      { apply seg_absorb. eapply (seg_seq _ [] (ids_of s)); [exact (expr_seg _ Pc _ _ _ _ A)| |rg|rg]. eapply (seg_seq _ [] (ids_of s)); [eapply seg_jz; [exact J|auto]| |rg|rg].
        rewrite <- (app_nil_r (ids_of s)). eapply seg_seq; [eapply IHs; [exact B|exact Pa|eapply exits_more; [exact Ex|]; unfold Y; auto]|eapply seg_jmp; [exact Jm|unfold Y; auto]|rg|rg]. }
      eapply seg_seq; [exact S1|eapply (H s2 eq_refl); [exact D|exact Pb|eapply exits_more; [exact Ex|]; unfold Y; auto]|rg|rg].
    + destruct L as (m1 & m2 & A & J & B). apply seg_absorb. eapply (seg_seq _ [] (ids_of s)); [exact (expr_seg _ Pc _ _ _ _ A)| |rg|rg].
      eapply (seg_seq _ [] (ids_of s)); [eapply seg_jz; [exact J|auto]| |rg|rg]. eapply IHs; [exact B|exact Pa|]. eapply exits_more; [exact Ex|auto].
  - (* while *) destruct P as (Pc & Pb). destruct L as (_ & m1 & m2 & m3 & q & A & J & B & Jm). apply seg_absorb.
    eapply (seg_seq _ [] (ids_of s)); [exact (expr_seg _ Pc _ _ _ _ A)| |rg|rg]. eapply (seg_seq _ [] (ids_of s)); [eapply seg_jz; [exact J|auto]| |rg|rg].
    rewrite <- (app_nil_r (ids_of s)). eapply seg_seq; [eapply IHs; [exact B|exact Pb|]|eapply seg_jmp; [exact Jm|auto]|rg|rg].
    intros _ k x ->. destruct k; auto.
  - (* for *) destruct P as (Pi & Pc & Ps & Pb). destruct L as (_ & m0 & m1 & m2 & m3 & m4 & q1 & q2 & q3 & A & B & J & D & E & Jm). rewrite !map_app. 
    apply seg_absorb. set (Y := fun pc k => X pc k \/ (pc = b0 /\ k = h) \/ (pc = a0 /\ k = h)).
    eapply seg_seq; [eapply IHs1; [exact A|exact Pi|apply no_exits]| |rg|rg].
    apply seg_absorb. eapply (seg_seq _ [] (ids_of s3 ++ ids_of s2)); [exact (expr_seg _ Pc _ _ _ _ B)| |rg|rg]. eapply (seg_seq _ [] (ids_of s3 ++ ids_of s2)); [eapply seg_jz; [exact J|auto]| |rg|rg].
    eapply seg_seq; [apply seg_absorb; eapply IHs3; [exact D|exact Pb|]| |rg|rg].
    + intros _ k x ->. destruct k; auto 6.
    + rewrite <- (app_nil_r (ids_of s2)). eapply seg_seq; [eapply IHs2; [exact E|exact Ps|apply no_exits]|eapply seg_jmp; [exact Jm|auto]|rg|rg].
  - (* return *) destruct e as [e|].
    + destruct L as (_ & m & A & B). eapply seg_seq0; [exact (expr_seg _ P _ _ _ _ A)| |rg|rg]. eapply seg_end; [exact B|reflexivity|cbn; lia|exact I].
    + destruct L as (_ & L). eapply seg_end; [exact L|reflexivity|cbn; lia|exact I].
  - (* break *) destruct L as (x & J & Hx & _). eapply seg_jmp; [exact J|]. eapply Ex; eauto.
  - (* continue *) destruct L as (x & J & Hx & _). eapply seg_jmp; [exact J|]. eapply Ex; eauto.
Qed.
End Seg.
