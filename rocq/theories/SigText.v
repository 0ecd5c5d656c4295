(** * Signatures written out: a text built from names is read back as those names *)
From Verif Require Import Base Float64 Token Lexer LexerAbs LexerC LexerCProofs LexerSpec LexerProofs LexerTheory LexerWords Values Syntax Symbols Parser
  Grammar BindSpec BindProofs.
Local Open Scope nat_scope.

(** ** Writing a signature *)
Fixpoint commas (l : list text) : text :=
  match l with
  | [] => []
  | [x] => x
  | x :: l' => x ++ text_of ", " ++ commas l'
  end.
(** [name(a, b, ...): ret] *)
Definition written (name : text) (args : list text) (va : bool) (ret : text) : text :=
  name ++ text_of "(" ++ commas (args ++ if va then [text_of "..."] else []) ++ text_of "): " ++ ret.

(** ** Reading it *)
Fixpoint reads_as (p : text) (ts : list (tokkind * text)) : Prop :=
  match ts with
  | [] => p = []
  | (k, x) :: ts' => exists pl p', alex p = (Some (k, pl, p'), 0%Z) /\ py_lexeme pl = Some x /\ proper k /\ reads_as p' ts'
  end.
Definition as_read (x : tokkind * text) (t : token) : Prop := tk t = fst x /\ tk_lexeme t = Some (snd x).

Lemma stream_reads : forall ts p fuel l, lex_ok l -> pend l = p -> reads_as p ts -> length ts < fuel ->
  exists xs e, lex_stream fuel l = (xs, SRepeat e) /\ tk e = TEOF /\ Forall2 as_read ts xs.
Proof.
  induction ts as [|[k x] ts IH]; intros p fuel l K P R F; (destruct fuel as [|fuel]; [inversion F|]); cbn [lex_stream reads_as] in *.
  - pose proof (get_token_abs l K) as G. rewrite P, R in G. cbn in G. destruct G as (l' & -> & _). eexists [], _. repeat split; auto.
  - destruct R as (pl & p' & A & Lx & Pk & R). pose proof (get_token_abs l K) as G. rewrite P, A in G. destruct G as (l' & -> & P' & K' & _ & _ & Lx' & _).
    destruct (IH p' fuel l' K' P' R ltac:(cbn in F; lia)) as (xs & e & E & Te & Fa). rewrite E.
    exists (snapshot k l' :: xs), e. split; [destruct Pk as [P1 P2]; destruct k; auto; congruence|]. split; auto. constructor; auto.
    split; auto. cbn [snapshot tk_lexeme fst snd]. rewrite Lx', Lx. reflexivity.
Qed.

Lemma reads_length : forall ts p, reads_as p ts -> length ts <= length p.
Proof.
  induction ts as [|[k x] ts IH]; intros p R; [cbn; lia|]. destruct R as (pl & p' & A & _ & Pk & R). apply IH in R.
  destruct (alex_split _ _ _ _ _ A) as (g & y & Ep & _ & _ & _ & _ & _ & _ & Sh). destruct (Sh Pk) as (_ & Sp). destruct Sp as [_ Sx _ _].
  rewrite Ep, !app_length. destruct y; [destruct Sx; auto|]. cbn [length]. lia.
Qed.

Lemma alex_blank p k pl p' : alex p = (Some (k, pl, p'), 0%Z) -> alex (" "%char :: p) = (Some (k, pl, p'), 0%Z).
Proof. unfold alex. cbn [triv]. change (is_space " "%char) with true. cbn. intros E. destruct (triv false p) as [q d]. injection E as E ->. rewrite E. reflexivity. Qed.
Lemma reads_blank p ts : ts <> [] -> reads_as p ts -> reads_as (" "%char :: p) ts.
Proof. destruct ts as [|[k x] ts]; [congruence|]. intros _ (pl & p' & A & R). exists pl, p'. split; auto. apply alex_blank, A. Qed.

(** What may come after a name *)
Definition name_ends (p : text) : Prop := match p with [] => True | c :: _ => identc c = false end.
Lemma alex_name s p : is_name s -> name_ends p -> exists pl, alex (s ++ p) = (Some (IDENT, pl, p), 0%Z) /\ py_lexeme pl = Some s.
Proof.
  intros ((c & s' & -> & Hc) & Hf & Hk) N. pose proof (letter_alpha _ Hc) as Ha. unfold alex.
  cbn [app]. rewrite (triv_stop (c :: s' ++ p)) by (apply stop_lit, alpha_lit, Ha). rewrite (acore_lit _ _ (alpha_lit _ Ha)), Ha.
  change (c :: s' ++ p) with ((c :: s') ++ p). rewrite (span_join identc (c :: s') p).
  - rewrite (not_kw _ Hk). eexists. split; reflexivity.
  - eapply Forall_impl; [|exact Hf]. intros a. apply name_char_ident.
  - destruct p; auto.
Qed.
Lemma reads_name s p ts : is_name s -> name_ends p -> reads_as p ts -> reads_as (s ++ p) ((IDENT, s) :: ts).
Proof. intros N E R. destruct (alex_name s p N E) as (pl & A & L). exists pl, p. repeat split; auto; discriminate. Qed.
Definition simple (c : ascii) (k : tokkind) : Prop := In (c, k) [("("%char, OPENPAREN); (")"%char, CLOSEPAREN); (","%char, COMMA)].
Lemma reads_simple c k p ts : simple c k -> reads_as p ts -> reads_as (c :: p) ((k, [c]) :: ts).
Proof.
  intros S R. cbn in S. repeat (destruct S as [S|S]; [injection S as <- <-; eexists _, p;
    (split; [unfold alex; cbn [triv]; rewrite ?triv_bl; destruct p as [|? [|? ?]]; reflexivity|repeat split; auto; discriminate])|]). destruct S.
Qed.
Lemma reads_colon p ts : reads_as (" "%char :: p) ts -> reads_as (":"%char :: " "%char :: p) ((COLON, text_of ":") :: ts).
Proof. intros R. eexists _, _. split; [destruct p; reflexivity|]. repeat split; auto; discriminate. Qed.
Lemma reads_dots p ts : reads_as p ts -> reads_as ("."%char :: "."%char :: "."%char :: p) ((ELLIPSIS, text_of "...") :: ts).
Proof. intros R. eexists _, _. split; [destruct p; reflexivity|]. repeat split; auto; discriminate. Qed.

(** The tokens *)
Definition item (x : text) : tokkind * text := (if text_eqb x (text_of "...") then ELLIPSIS else IDENT, x).
Fixpoint item_tokens (l : list text) : list (tokkind * text) :=
  match l with
  | [] => []
  | [x] => [item x]
  | x :: l' => item x :: (COMMA, text_of ",") :: item_tokens l'
  end.
Definition an_item (x : text) : Prop := is_name x \/ x = text_of "...".
Lemma name_not_dots x : is_name x -> text_eqb x (text_of "...") = false.
Proof.
  intros ((c & s' & -> & Hc) & _). apply letter_alpha in Hc. destruct (text_eqb _ _) eqn:Q; auto. apply text_eqb_eq in Q. cbn in Q. injection Q as -> _. discriminate.
Qed.
Lemma reads_item x p ts : an_item x -> name_ends p -> reads_as p ts -> reads_as (x ++ p) (item x :: ts).
Proof.
  unfold item. intros [N|E] Ep R.
  - rewrite (name_not_dots _ N). apply reads_name; auto.
  - subst x. apply reads_dots; auto.
Qed.
Lemma reads_items l p ts : Forall an_item l -> name_ends p -> reads_as p ts -> reads_as (commas l ++ p) (item_tokens l ++ ts).
Proof.
  intros Fa Ep R. induction Fa as [|x l Hx Fa IH]; [exact R|]. destruct l as [|y l].
  - cbn [commas item_tokens app]. apply reads_item; auto.
  - cbn [commas item_tokens]. rewrite <- app_assoc. cbn [app]. apply reads_item; [auto|reflexivity|].
    apply reads_simple; [cbn; auto|]. apply reads_blank; [|exact IH]. destruct l; discriminate.
Qed.

Definition sig_tokens (name : text) (items : list text) (ret : text) : list (tokkind * text) :=
  (IDENT, name) :: (OPENPAREN, text_of "(") :: item_tokens items ++ [(CLOSEPAREN, text_of ")"); (COLON, text_of ":"); (IDENT, ret)].

Lemma written_reads name args va ret : is_name name -> Forall is_name args -> is_name ret ->
  reads_as (" "%char :: written name args va ret) (sig_tokens name (args ++ if va then [text_of "..."] else []) ret).
Proof.
  intros N A R. unfold written, sig_tokens. apply reads_blank; [discriminate|]. apply reads_name; [auto|reflexivity|]. cbn [text_of app].
  apply reads_simple; [cbn; auto|]. apply reads_items; [|reflexivity|].
  - apply Forall_app. split; [eapply Forall_impl; [|exact A]; unfold an_item; auto|]. destruct va; [constructor; [right; reflexivity|constructor]|constructor].
  - cbn [app]. apply reads_simple; [cbn; auto|]. apply reads_colon. apply reads_blank; [discriminate|].
    rewrite <- (app_nil_r ret) at 1. apply reads_name; auto; [exact I|reflexivity].
Qed.

Lemma item_tokens_length l : length (item_tokens l) <= length (commas l) + length l + length l.
Proof. induction l as [|x [|y l] IH]; cbn [item_tokens commas length] in *; try lia. rewrite !app_length. cbn [length] in *. lia. Qed.

(** ** As a signature *)
(** The tokens of types, all of them known *)
Definition spelt_as (T : tbl) (x : text) (g : tag) : Prop := tag_from_name x T = COk g T.

Lemma items_spell T : forall args gs, Forall is_name args -> Forall2 (spelt_as T) args gs ->
  forall xs, Forall2 as_read (item_tokens args) xs -> spells_sig_args T xs gs false T.
Proof.
  intros args gs N F. induction F as [|x g args gs X F IH]; intros xs R.
  - inversion R; subst. constructor.
  - inversion N as [|? ? Nx N']; subst. specialize (IH N'). destruct args as [|y args].
    + inversion F; subst. cbn [item_tokens] in R. inversion R as [|? t ? ? Rt R']; subst. inversion R'; subst. unfold item in Rt. rewrite (name_not_dots _ Nx) in Rt. destruct Rt as [R1 R2].
      apply (sa_type T [t] g T [] [] false T); [econstructor; eauto|constructor].
    + cbn [item_tokens] in R. inversion R as [|? t ? ? Rt R1]; subst. inversion R1 as [|? c ? ? Rc R2]; subst. unfold item in Rt. rewrite (name_not_dots _ Nx) in Rt. destruct Rt as [Rt1 Rt2].
      apply (sa_type T [t] g T (c :: _) gs false T); [econstructor; eauto|]. apply sa_comma; [apply Rc|]. apply IH. exact R2.
Qed.
Lemma items_spell_va T : forall args gs, Forall is_name args -> Forall2 (spelt_as T) args gs ->
  forall xs, Forall2 as_read (item_tokens (args ++ [text_of "..."])) xs -> spells_sig_args T xs gs true T.
Proof.
  intros args gs N F. induction F as [|x g args gs X F IH]; intros xs R.
  - cbn in R. inversion R as [|? t ? ? Rt R']; subst. inversion R'; subst. apply (sa_dots T t [] [] false T); [apply Rt|constructor].
  - inversion N as [|? ? Nx N']; subst. specialize (IH N').
    assert (Q : item_tokens ((x :: args) ++ [text_of "..."]) = item x :: (COMMA, text_of ",") :: item_tokens (args ++ [text_of "..."])) by (destruct args; reflexivity).
    rewrite Q in R. inversion R as [|? t ? ? Rt R1]; subst. inversion R1 as [|? c ? ? Rc R2]; subst. unfold item in Rt. rewrite (name_not_dots _ Nx) in Rt. destruct Rt as [Rt1 Rt2].
    apply (sa_type T [t] g T (c :: _) gs true T); [econstructor; eauto|]. apply sa_comma; [apply Rc|]. apply IH. exact R2.
Qed.

Lemma Forall2_cons_l {A B} (R : A -> B -> Prop) a l m : Forall2 R (a :: l) m -> exists b m', m = b :: m' /\ R a b /\ Forall2 R l m'.
Proof. intros F. inversion F; subst. eauto. Qed.
Lemma Forall2_app_l {A B} (R : A -> B -> Prop) : forall l1 l2 m, Forall2 R (l1 ++ l2) m -> exists m1 m2, m = m1 ++ m2 /\ Forall2 R l1 m1 /\ Forall2 R l2 m2.
Proof.
  induction l1 as [|a l1 IH]; intros l2 m F; cbn in F; [exists [], m; auto|]. apply Forall2_cons_l in F as (b & m' & -> & Ra & F).
  destruct (IH _ _ F) as (m1 & m2 & -> & F1 & F2). exists (b :: m1), m2. split; auto.
Qed.

(** A signature written from known types is one. *)
Theorem written_signature T name args va ret gs g : is_name name -> Forall is_name args -> is_name ret ->
  Forall2 (spelt_as T) args gs -> spelt_as T ret g ->
  exists a y, begins (written name args va ret) a y /\ signature T a (tk y) name gs va g T.
Proof.
  intros N A R Fa G. pose proof (written_reads name args va ret N A R) as Rd. set (its := args ++ if va then [text_of "..."] else []) in *.
  set (src := written name args va ret) in *.
  destruct (stream_reads (sig_tokens name its ret) (" "%char :: src) (length src + 3) (init_lexer src)) as (xs & e & E & Te & F2);
    [intros Q; discriminate Q|reflexivity|exact Rd|pose proof (reads_length _ _ Rd) as Le; cbn [length] in Le; lia|].
  exists xs, e. split.
  - exists 1, []. unfold lex_all. rewrite E. reflexivity.
  - rewrite Te. unfold sig_tokens in F2. apply Forall2_cons_l in F2 as (t & m1 & -> & [T1 T2] & F2). apply Forall2_cons_l in F2 as (o & m2 & -> & [O1 _] & F2).
    apply Forall2_app_l in F2 as (b & m3 & -> & Fb & F2). apply Forall2_cons_l in F2 as (c & m4 & -> & [C1 _] & F2). apply Forall2_cons_l in F2 as (l & m5 & -> & [L1 _] & F2).
    apply Forall2_cons_l in F2 as (r & m6 & -> & [R1 R2] & F2). inversion F2; subst.
    eapply (sg_result T t name o b c l [r]); eauto; [|econstructor; eauto|discriminate].
    unfold its in Fb. destruct va; [apply (items_spell_va T args gs); auto|]. rewrite app_nil_r in Fb. apply (items_spell T args gs); auto.
Qed.
