(** * printf prints what its format says *)
From Verif Require Import Base Float64 Values ValuesSpec Lexer Heap Code VM Std StdSpec StdProofs.
Local Open Scope nat_scope.

Section S.
Context {H : Type} (M : machine H).
Variable emit : text -> H -> H.
Variable fmt_f : Z -> text.
Variable native_text : H -> Z -> nat -> text.
Variable elements : H -> Z -> nat -> option (list value).
Variable out : H -> text.
Variable array_of : Z -> nat -> option (list value).
Variable ok : H -> Prop.
Hypothesis out_emit : forall s w, out (emit s w) = out w ++ s.
Hypothesis el : forall w a p, ok w -> elements w a p = array_of a p.
Hypothesis ok_emit : forall s w, ok w -> ok (emit s w).
Notation go c := (run_fprog M c).
Notation print := (print emit fmt_f native_text elements).
Notation print_list := (print_list emit).
Notation say := (say emit).

(** [p k] writes [s] and goes on as [k] *)
Definition writes (hp : heap) (p : fprog H -> fprog H) (s : text) : Prop :=
  forall k t, t_heap t = hp -> ok (t_host t) ->
  exists w, out w = out (t_host t) ++ s /\ ok w /\ forall c, go c (p k) t = go c k (with_host t w).

Lemma with_host_host (t : thread H) w : t_host (with_host t w) = w.
Proof. destruct t; reflexivity. Qed.
Lemma with_host_heap (t : thread H) w : t_heap (with_host t w) = t_heap t.
Proof. destruct t; reflexivity. Qed.
Lemma with_host_2 (t : thread H) w w' : with_host (with_host t w) w' = with_host t w'.
Proof. destruct t; reflexivity. Qed.
Lemma with_host_id (t : thread H) : with_host t (t_host t) = t.
Proof. destruct t; reflexivity. Qed.

Lemma writes_say hp s : writes hp (say s) s.
Proof.
  intros k t _ O. exists (emit s (t_host t)). rewrite out_emit. split; [reflexivity|]. split; [auto|]. intros c. reflexivity.
Qed.
Lemma writes_id hp : writes hp (fun k => k) [].
Proof. intros k t _ O. exists (t_host t). rewrite app_nil_r, with_host_id. auto. Qed.
Lemma writes_seq hp p q s s' : writes hp p s -> writes hp q s' -> writes hp (fun k => p (q k)) (s ++ s').
Proof.
  intros P Q k t E O. destruct (P (q k) t E O) as (w & W & O1 & G1).
  destruct (Q k (with_host t w)) as (w' & W' & O2 & G2); [rewrite with_host_heap; auto|rewrite with_host_host; auto|].
  exists w'. rewrite W', with_host_host, W, app_assoc. split; auto. split; auto. intros c. rewrite G1, G2, with_host_2. reflexivity.
Qed.
Lemma writes_ext hp p q s : (forall c k t, t_heap t = hp -> ok (t_host t) -> go c (p k) t = go c (q k) t) -> writes hp q s -> writes hp p s.
Proof. intros E Q k t Ht O. destruct (Q k t Ht O) as (w & W & O1 & G). exists w. split; auto. split; auto. intros c. rewrite (E c k t Ht O). auto. Qed.

Lemma strlen_cut s0 s tail : s0 = s ++ tail -> nul_free s -> tail = [] \/ (exists r, tail = "000"%char :: r) -> c_strlen s0 = Ok (length s).
Proof.
  intros -> F Ta. unfold c_strlen.
  assert (G : forall pre s fuel, nul_free s -> length s < fuel -> strlen_from fuel (pre ++ s ++ tail) (length pre) = Ok (length pre + length s)).
  { intros pre s1. revert pre. induction s1 as [|c s1 IH]; intros pre [|fuel] Nf L; cbn [length] in L; try lia; cbn [strlen_from].
    - assert (B : byte (pre ++ [] ++ tail) (length pre) = Ok nul).
      { unfold byte. rewrite nth_error_app2, Nat.sub_diag by lia. cbn [app]. destruct Ta as [-> | (r & ->)]; [|reflexivity].
        cbn [nth_error]. rewrite app_nil_r, Nat.eqb_refl. reflexivity. }
      rewrite B. change (Ascii.eqb nul nul) with true. cbn iota. cbn [length]. f_equal. lia.
    - assert (B : byte (pre ++ (c :: s1) ++ tail) (length pre) = Ok c).
      { unfold byte. rewrite nth_error_app2, Nat.sub_diag by lia. reflexivity. }
      rewrite B. destruct (Ascii.eqb_spec c nul) as [->|]; [destruct Nf; left; reflexivity|].
      specialize (IH (pre ++ [c]) fuel). rewrite app_length, Nat.add_1_r, <- app_assoc in IH. cbn [app] in IH.
      cbn [app]. rewrite IH by (try lia; intros I; apply Nf; right; exact I). cbn [length]. f_equal. lia. }
  apply (G [] s); auto. rewrite app_length. lia.
Qed.
Lemma until_nul_cut s0 s tail : s0 = s ++ tail -> nul_free s -> tail = [] \/ (exists r, tail = "000"%char :: r) -> until_nul s0 = s.
Proof.
  intros ->. induction s as [|c s IH]; intros F Ta; cbn [app until_nul].
  - destruct Ta as [-> | (r & ->)]; reflexivity.
  - destruct (Ascii.eqb_spec c "000") as [->|]; [destruct F; left; reflexivity|]. f_equal. apply IH; auto. intros I. apply F. right; exact I.
Qed.

Lemma shown_writes hp :
  (forall v s, shown fmt_f array_of hp v s -> exists n, forall f, n <= f -> writes hp (print f v true) s) /\
  (forall b vs o, shown_list fmt_f array_of hp b vs o -> exists n, forall f, n <= f -> writes hp (print_list (fun x => print f x true) b vs) o).
Proof.
  apply shown_both.
  - exists 1. intros [|f] L; [lia|]. apply writes_say.
  - intros i. exists 1. intros [|f] L; [lia|]. apply writes_say.
  - intros b. exists 1. intros [|f] L; [lia|]. apply writes_say.
  - intros b. exists 1. intros [|f] L; [lia|]. apply writes_id.
  - intros v s tail T F Ta. exists 1. intros [|f] L; [lia|]. remember (s ++ tail) as s0 eqn:Es. destruct T as [s0|id m s0 G].
    + cbn [Std.print]. rewrite (until_nul_cut s0 s tail) by auto. apply writes_say.
    + eapply writes_ext; [|apply (writes_say hp (text_of """" ++ s ++ text_of """"))]. intros c0 k t E O.
      cbn [Std.print run_fprog ref_of]. rewrite E, G. cbn [o_body]. rewrite (until_nul_cut s0 s tail) by auto. reflexivity.
  - intros id m fs o G _ (n & IH). exists (S n). intros [|f] L; [lia|].
    eapply writes_ext; [|apply (writes_seq hp _ _ _ _ (writes_say hp _) (writes_seq hp _ _ _ _ (IH f ltac:(lia)) (writes_say hp (text_of "}"))))].
    intros c0 k t E O. cbn [Std.print run_fprog ref_of]. rewrite E, G. reflexivity.
  - intros id m a p vs o G A _ (n & IH). exists (S n). intros [|f] L; [lia|].
    eapply writes_ext; [|apply (writes_seq hp _ _ _ _ (writes_say hp _) (writes_seq hp _ _ _ _ (IH f ltac:(lia)) (writes_say hp (text_of "]"))))].
    intros c0 k t E O. cbn [Std.print run_fprog ref_of]. rewrite E, G. cbn [o_body run_fprog]. rewrite el, A by auto. reflexivity.
  - intros b. exists 0. intros f _. apply writes_id.
  - intros first v vs s o _ (n & IH) _ (n' & IH'). exists (Nat.max n n'). intros f L.
    destruct first.
    + apply (writes_seq hp _ _ _ _ (IH f ltac:(lia)) (IH' f ltac:(lia))).
    + apply (writes_seq hp _ _ _ _ (writes_say hp (text_of ", ")) (writes_seq hp _ _ _ _ (IH f ltac:(lia)) (IH' f ltac:(lia)))).
Qed.

Notation printf_from := (printf_from emit fmt_f native_text elements).

Definition ends (hp : heap) (p : fprog H) (s : text) : Prop :=
  forall t, t_heap t = hp -> ok (t_host t) ->
  exists w, out w = out (t_host t) ++ s /\ ok w /\ forall c, go c p t = Ok (VNull, with_host t w).
Lemma ends_seq hp p q s s' : writes hp p s -> ends hp q s' -> ends hp (p q) (s ++ s').
Proof.
  intros P Q t E O. destruct (P q t E O) as (w & W & O1 & G1).
  destruct (Q (with_host t w)) as (w' & W' & O2 & G2); [rewrite with_host_heap; auto|rewrite with_host_host; auto|].
  exists w'. rewrite W', with_host_host, W, app_assoc. split; auto. split; auto. intros c. rewrite G1, G2, with_host_2. reflexivity.
Qed.

Lemma spec_writes hp c v s : 
  (c = "i"%char /\ exists i, v = VInt i /\ s = decimal i) \/
  (c = "f"%char /\ exists b, v = VFloat b /\ s = fmt_f b) \/
  (c = "s"%char /\ nul_free s /\ exists tail, text_of_value hp v (s ++ tail) /\ (tail = [] \/ exists r, tail = "000"%char :: r)) \/
  (c = "c"%char /\ exists d i, v = VInt i /\ Z.of_nat (nat_of_ascii d) = (i mod 256)%Z /\ s = [d]) \/
  (c = "q"%char /\ shown fmt_f array_of hp v s) ->
  exists n, forall f, n <= f -> writes hp (spec_out emit fmt_f native_text elements f c v) s.
Proof.
  intros [(-> & i & -> & ->)|[(-> & b & -> & ->)|[(-> & F & tail & T & Ta)|[(-> & d & i & -> & Ed & ->)|(-> & S)]]]].
  - exists 0. intros f _. apply writes_say.
  - exists 0. intros f _. apply writes_say.
  - exists 0. intros f _. eapply writes_ext; [|apply (writes_say hp s)]. intros c0 k t E O. unfold spec_out.
    change (Ascii.eqb "s" "i") with false. change (Ascii.eqb "s" "f") with false. change (Ascii.eqb "s" "s") with true. cbn iota.
    remember (s ++ tail) as s0 eqn:Es. destruct T as [s0|id m s0 G]; cbn [with_string].
    + rewrite (strlen_cut s0 s tail) by auto. cbn [attempt]. rewrite Es, firstn_app, firstn_all, Nat.sub_diag. cbn [firstn]. rewrite app_nil_r, until_nul_free by auto. reflexivity.
    + cbn [run_fprog ref_of]. rewrite E, G. cbn [o_body]. rewrite firstn_all, (until_nul_cut s0 s tail) by auto. reflexivity.
  - exists 0. intros f _. pose proof (nat_ascii_bounded d) as B. eapply writes_ext; [|apply (writes_say hp [d])]. intros c0 k t E O.
    unfold spec_out. change (Ascii.eqb "c" "i") with false. change (Ascii.eqb "c" "f") with false. change (Ascii.eqb "c" "s") with false.
    change (Ascii.eqb "c" "c") with true. cbn iota. cbn [raw_int attempt]. rewrite <- Ed, Nat2Z.id, ascii_nat_embedding. reflexivity.
  - destruct (proj1 (shown_writes hp) v s S) as (n & W). exists n. exact W.
Qed.

Lemma printf_ends hp : forall fmt args o, rendered fmt_f array_of hp fmt args o ->
  exists n, forall f, n <= f -> ends hp (printf_from f fmt args) o.
Proof.
  assert (Spec : forall c v s fm args o, 
    (exists n, forall f, n <= f -> writes hp (spec_out emit fmt_f native_text elements f c v) s) ->
    (exists n, forall f, n <= f -> ends hp (printf_from f fm args) o) ->
    exists n, forall f, n <= f -> ends hp (printf_from f ("%"%char :: c :: fm) (v :: args)) (s ++ o)).
  { intros c v s fm args o (n & W) (n' & E). exists (Nat.max n n'). intros f L.
    exact (ends_seq hp _ _ _ _ (W f ltac:(lia)) (E f ltac:(lia))). }
  induction 1 as [args|c f args o N1 N2 R IH|i f args o R IH|b f args o R IH|v s tail f args o T F Ta R IH|c i f args o Ec R IH|v s f args o S R IH|
    b i f args o Bb Bi Em R IH|i f args o R IH|c v f args o Nc R IH|v f args o R IH|f args].
  - exists 0. intros f _ t E O. exists (t_host t). rewrite app_nil_r, with_host_id. auto.
  - destruct IH as (n & IH). exists n. intros g L. cbn [Std.printf_from].
    destruct (Ascii.eqb_spec c nul) as [->|_]; [destruct N2; reflexivity|]. destruct (Ascii.eqb_spec c "%") as [->|_]; [destruct N1; reflexivity|].
    exact (ends_seq hp _ _ _ _ (writes_say hp [c]) (IH g L)).
  - apply Spec; auto. apply spec_writes. left. split; auto. eauto.
  - apply Spec; auto. apply spec_writes. right; left. split; auto. eauto.
  - apply Spec; auto. apply spec_writes. right; right; left. split; auto. split; auto. eauto.
  - apply (Spec "c"%char (VInt i) [c]); auto. apply spec_writes. right; right; right; left. split; auto. eauto.
  - apply Spec; auto. apply spec_writes. right; right; right; right. auto.
  - apply Spec; auto. exists 0. intros g _. unfold spec_out. change (Ascii.eqb "i" "i") with true. cbn iota. cbn [raw_int attempt].
    replace (to_signed64 b) with i; [apply writes_say|]. unfold to_signed64. clear -Bb Bi Em. destruct (Z.ltb_spec b (2^63)); Z.div_mod_to_equations; lia.
  - apply Spec; auto. exists 0. intros g _. apply writes_say.
  - rewrite !app_assoc, <- (app_assoc _ [c]), <- !app_assoc. apply (Spec c v (["010"%char] ++ text_of "Invalid format specifier '" ++ [c] ++ text_of "'" ++ ["010"%char]) f args o) in IH.
    + rewrite <- !app_assoc in IH. exact IH.
    + exists 0. intros g _. unfold spec_out. cbn [In] in Nc.
      repeat match goal with |- context [Ascii.eqb c ?d] => destruct (Ascii.eqb_spec c d) as [->|]; [exfalso; apply Nc; tauto|] end. apply writes_say.
  - apply (Spec "%"%char v (text_of "%" ++ ["010"%char] ++ text_of "Invalid format specifier '%'" ++ ["010"%char]) f args o) in IH.
    + rewrite <- !app_assoc in IH. exact IH.
    + exists 0. intros g _. apply (writes_seq hp _ _ _ _ (writes_say hp (text_of "%")) (writes_say hp _)).
  - exists 0. intros g _ t E O. exists (t_host t). rewrite app_nil_r, with_host_id. auto.
Qed.

(** A format that asks for one more argument than there is ends the program. *)
Definition exact (hp : heap) (fmt : text) (args : list value) : Prop :=
  forall few last o, args = few ++ [last] -> ~ rendered fmt_f array_of hp fmt few o.
Definition stops (hp : heap) (p : fprog H) : Prop :=
  forall t, t_heap t = hp -> ok (t_host t) -> forall c, go c p t = Abort.
Lemma stops_seq hp p q s : writes hp p s -> stops hp q -> stops hp (p q).
Proof.
  intros P Q t E O c. destruct (P q t E O) as (w & _ & O1 & G1). rewrite G1.
  apply Q; [rewrite with_host_heap; auto|rewrite with_host_host; auto].
Qed.
Lemma printf_starves hp post : forall fmt args o, rendered fmt_f array_of hp fmt args o -> nul_free fmt -> exact hp fmt args ->
  exists n, forall f, n <= f -> stops hp (printf_from f (fmt ++ "%"%char :: post) args).
Proof.
  assert (Spec : forall c v s fm args, 
    (forall few o, rendered fmt_f array_of hp fm few o -> exists o', rendered fmt_f array_of hp ("%"%char :: c :: fm) (v :: few) o') ->
    (exists n, forall f, n <= f -> writes hp (spec_out emit fmt_f native_text elements f c v) s) ->
    (nul_free fm -> exact hp fm args -> exists n, forall f, n <= f -> stops hp (printf_from f (fm ++ "%"%char :: post) args)) ->
    nul_free ("%"%char :: c :: fm) -> exact hp ("%"%char :: c :: fm) (v :: args) ->
    exists n, forall f, n <= f -> stops hp (printf_from f ("%"%char :: c :: fm ++ "%"%char :: post) (v :: args))).
  { intros c v s fm args Ex (n & W) IH Nf X. destruct IH as (n' & E).
    - intros I. apply Nf. right; right; exact I.
    - intros few last o -> R. destruct (Ex few o R) as (o' & R'). exact (X (v :: few) last o' eq_refl R').
    - exists (Nat.max n n'). intros f L. exact (stops_seq hp _ _ _ (W f ltac:(lia)) (E f ltac:(lia))). }
  induction 1 as [args|c f args o N1 N2 R IH|i f args o R IH|b f args o R IH|v s tail f args o T F Ta R IH|c i f args o Ec R IH|v s f args o S R IH|
    b i f args o Bb Bi Em R IH|i f args o R IH|c v f args o Nc R IH|v f args o R IH|f args]; intros Nf X; cbn [app].
  - destruct args as [|v args].
    + exists 0. intros f _ t _ _ c. reflexivity.
    + destruct (exists_last (l := v :: args) ltac:(discriminate)) as (few & last & E). destruct (X few last [] E). apply rd_end.
  - destruct IH as (n & IH).
    + intros I. apply Nf. right; exact I.
    + intros few last o' -> R'. apply (X few last (c :: o') eq_refl). apply rd_char; auto.
    + exists n. intros g L. cbn [Std.printf_from].
      destruct (Ascii.eqb_spec c nul) as [->|_]; [destruct N2; reflexivity|]. destruct (Ascii.eqb_spec c "%") as [->|_]; [destruct N1; reflexivity|].
      exact (stops_seq hp _ _ _ (writes_say hp [c]) (IH g L)).
  - apply (Spec "i"%char (VInt i) (decimal i)); auto; [intros; eexists; apply rd_int; eassumption|]. apply spec_writes. left. split; auto. eauto.
  - apply (Spec "f"%char (VFloat b) (fmt_f b)); auto; [intros; eexists; apply rd_float; eassumption|]. apply spec_writes. right; left. split; auto. eauto.
  - apply (Spec "s"%char v s); auto; [intros; eexists; eapply rd_string; eassumption|]. apply spec_writes. right; right; left. split; auto. split; auto. eauto.
  - apply (Spec "c"%char (VInt i) [c]); auto; [intros; eexists; eapply rd_chr; eassumption|]. apply spec_writes. right; right; right; left. split; auto. eauto.
  - apply (Spec "q"%char v s); auto; [intros; eexists; eapply rd_quoted; eassumption|]. apply spec_writes. right; right; right; right. auto.
  - apply (Spec "i"%char (VFloat b) (decimal i)); auto; [intros; eexists; eapply rd_int_bits; eassumption|]. exists 0. intros g _.
    unfold spec_out. change (Ascii.eqb "i" "i") with true. cbn iota. cbn [raw_int attempt].
    replace (to_signed64 b) with i; [apply writes_say|]. unfold to_signed64. clear -Bb Bi Em. destruct (Z.ltb_spec b (2^63)); Z.div_mod_to_equations; lia.
  - apply (Spec "f"%char (VInt i) (fmt_f (i mod 2^64))); auto; [intros; eexists; apply rd_float_bits; eassumption|]. exists 0. intros g _. apply writes_say.
  - apply (Spec c v (["010"%char] ++ text_of "Invalid format specifier '" ++ [c] ++ text_of "'" ++ ["010"%char])); auto; [intros; eexists; apply rd_unknown; eassumption|].
    exists 0. intros g _. unfold spec_out. cbn [In] in Nc.
    repeat match goal with |- context [Ascii.eqb c ?d] => destruct (Ascii.eqb_spec c d) as [->|]; [exfalso; apply Nc; tauto|] end. apply writes_say.
  - apply (Spec "%"%char v (text_of "%" ++ ["010"%char] ++ text_of "Invalid format specifier '%'" ++ ["010"%char])); auto; [intros; eexists; apply rd_percent; eassumption|].
    exists 0. intros g _. apply (writes_seq hp _ _ _ _ (writes_say hp (text_of "%")) (writes_say hp _)).
  - destruct Nf. left; reflexivity.
Qed.
End S.
