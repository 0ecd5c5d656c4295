From Verif Require Import Base Float64 Token Lexer LexerAbs LexerC LexerCProofs LexerSpec Pos PosProofs.
Local Open Scope Z_scope.

(** ** More fuel changes nothing *)
Section Mono.
Variable src : text.

Lemma blanks_mono f : forall c, c_blanks src f c <> Fuel -> forall f', (f <= f')%nat ->
  c_blanks src f' c = c_blanks src f c.
Proof.
  induction f as [|f IH]; intros c H f' Hf; [cbn in H; congruence|].
  destruct f' as [|f']; [lia|]. cbn [c_blanks] in *. destruct (test is_space (c_last c)); [|reflexivity].
  destruct (c_get_char src _) as [c1| | |]; cbn [obind] in *; try reflexivity. apply IH; auto; lia.
Qed.
Lemma comment_mono f : forall c, c_comment src f c <> Fuel -> forall f', (f <= f')%nat ->
  c_comment src f' c = c_comment src f c.
Proof.
  induction f as [|f IH]; intros c H f' Hf; [cbn in H; congruence|].
  destruct f' as [|f']; [lia|]. cbn [c_comment] in *. destruct (c_last c) as [x|]; [|reflexivity].
  destruct (ceqb x ch_nl); [reflexivity|].
  destruct (c_get_char src _) as [c1| | |]; cbn [obind] in *; try reflexivity. apply IH; auto; lia.
Qed.
Lemma ident_mono f : forall c, c_ident src f c <> Fuel -> forall f', (f <= f')%nat ->
  c_ident src f' c = c_ident src f c.
Proof.
  induction f as [|f IH]; intros c H f' Hf; [cbn in H; congruence|].
  destruct f' as [|f']; [lia|]. cbn [c_ident] in *. destruct (_ || _); [|reflexivity].
  destruct (c_get_char src _) as [c1| | |]; cbn [obind] in *; try reflexivity. apply IH; auto; lia.
Qed.
Lemma number_mono f : forall a b c, c_number src f a b c <> Fuel -> forall f', (f <= f')%nat ->
  c_number src f' a b c = c_number src f a b c.
Proof.
  induction f as [|f IH]; intros a b c H f' Hf; [cbn in H; congruence|].
  destruct f' as [|f']; [lia|]. cbn [c_number] in *. destruct (_ || _); [|reflexivity].
  destruct (c_get_char src _) as [c1| | |]; cbn [obind] in *; try reflexivity. apply IH; auto; lia.
Qed.
Lemma string_mono f : forall c, c_string src f c <> Fuel -> forall f', (f <= f')%nat ->
  c_string src f' c = c_string src f c.
Proof.
  induction f as [|f IH]; intros c H f' Hf; [cbn in H; congruence|].
  destruct f' as [|f']; [lia|]. cbn [c_string] in *. destruct (is_c (c_last c) ch_dquote); [reflexivity|].
  destruct (c_escape src c) as [c1| | |]; cbn [obind] in *; try reflexivity.
  destruct (c_get_char src _) as [c2| | |]; cbn [obind] in *; try reflexivity. apply IH; auto; lia.
Qed.

Lemma obind_nofuel {A B} (m m' : outcome A) (k k' : A -> outcome B) :
  (m <> Fuel -> m' = m) -> (forall a, k a <> Fuel -> k' a = k a) ->
  obind m k <> Fuel -> obind m' k' = obind m k.
Proof. intros H1 H2 H. destruct m; cbn in *; rewrite H1 by congruence; cbn; auto. Qed.

Lemma token_mono f : forall c, c_get_token src f c <> Fuel -> forall f', (f <= f')%nat ->
  c_get_token src f' c = c_get_token src f c.
Proof.
  induction f as [|f IH]; intros c H f' Hf; [cbn in H; congruence|].
  destruct f' as [|f']; [lia|]. remember (S f) as F. remember (S f') as F'.
  rewrite HeqF, HeqF' in *. cbn [c_get_token] in *. rewrite <- HeqF, <- HeqF' in *.
  assert (Hf' : (F <= F')%nat) by lia.
  revert H. apply obind_nofuel; [intros; apply blanks_mono; auto|].
  intros l. destruct (c_last l) as [x|]; [|reflexivity].
  apply obind_nofuel; [reflexivity|]. intros p. destruct (ceqb x "/" && is_c p "/").
  { apply obind_nofuel; [intros; apply comment_mono; auto|]. intros l1.
    apply obind_nofuel; [reflexivity|]. intros l2 H. apply IH; auto; lia. }
  apply obind_nofuel; [reflexivity|]. intros e1. apply obind_nofuel; [reflexivity|]. intros e2.
  destruct (_ && _ && _); [reflexivity|]. apply obind_nofuel; [reflexivity|]. intros [k|]; [reflexivity|].
  destruct (c_match1 match1_table l); [reflexivity|].
  destruct (is_alpha x). { apply obind_nofuel; [intros; apply ident_mono; auto|reflexivity]. }
  destruct (is_digit x). { apply obind_nofuel; [intros; apply number_mono; auto|reflexivity]. }
  destruct (ceqb x ch_quote); [reflexivity|]. destruct (ceqb x ch_dquote); [|reflexivity].
  apply obind_nofuel; [reflexivity|]. intros l1. apply obind_nofuel; [intros; apply string_mono; auto|reflexivity].
Qed.

Lemma ask_mono f : forall n c, ask src f n c <> Fuel -> forall f', (f <= f')%nat ->
  ask src f' n c = ask src f n c.
Proof.
  induction n as [|n IH]; intros c H f' Hf; [reflexivity|]. cbn [ask] in *. revert H.
  apply obind_nofuel; [intros; apply token_mono; auto|]. intros [k l].
  apply obind_nofuel; [intros; apply IH; auto|reflexivity].
Qed.
End Mono.

(** ** Tokens of a pending text *)
Definition fields : Type := option text * bool * Z * Z.
Definition fields_of (c : clex) : fields := (c_lexeme c, c_b c, c_i c, c_f c).
Definition upd (pl : payload) (fs : fields) : fields :=
  let '(l, b, i, f) := fs in
  (orelseo (py_lexeme pl) l, orelse (py_b pl) b, orelse (py_i pl) i, orelse (py_f pl) f).
Definition mk_token (k : tokkind) (pos line : Z) (fs : fields) : token :=
  let '(l, b, i, f) := fs in mkTok k pos line l b i f.

Definition pos_of (len : Z) (p : text) : Z :=
  match p with [] => len | _ :: r => len - Z.of_nat (List.length r) end.

Fixpoint atoks (len : Z) (n : nat) (p : text) (line : Z) (fs : fields)
  : option (list token * text * Z * fields) :=
  match n with
  | O => Some ([], p, line, fs)
  | S n' =>
      match alex p with
      | (None, _) => None
      | (Some (k, pl, p1), d) =>
          match atoks len n' p1 (line + d) (upd pl fs) with
          | None => None
          | Some (ts, p2, line2, fs2) =>
              Some (mk_token k (pos_of len p1) (line + d) (upd pl fs) :: ts, p2, line2, fs2)
          end
      end
  end.

Notation slen s := (Z.of_nat (List.length s)).

Lemma at_pos src p c : at_ src p c -> c_pos c = pos_of (slen src) p.
Proof.
  intros [H1 H2]. destruct p as [|x r]; destruct (c_last c); cbn [pos_of].
  - discriminate.
  - apply H2.
  - injection H2 as _ ->. rewrite skipn_length. lia.
  - destruct H2; discriminate.
Qed.

Lemma triv_le n : forall p cmt, (List.length p <= n)%nat -> (List.length (fst (triv cmt p)) <= List.length p)%nat.
Proof.
  induction n as [|n IH]; intros p cmt H; destruct p as [|c r]; cbn [List.length] in *; try (cbn; lia).
  cbn [triv]. destruct cmt.
  - specialize (IH r (negb (ceqb c ch_nl)) ltac:(lia)).
    destruct (triv (negb (ceqb c ch_nl)) r); cbn [fst List.length] in *. lia.
  - destruct (is_space c).
    + specialize (IH r false ltac:(lia)). destruct (triv false r); cbn [fst List.length] in *. lia.
    + destruct r as [|d r]; [cbn; lia|]. destruct (ceqb c "/" && ceqb d "/"); [|cbn; lia].
      specialize (IH (d :: r) true ltac:(lia)). lia.
Qed.

Lemma ask_atoks src : forall n p c F, at_ src p c -> (List.length p < F)%nat ->
  (forall k pl p1 d q, (List.length q <= List.length p)%nat -> alex q = (Some (k, pl, p1), d) -> 
      (List.length p1 <= List.length q)%nat) ->
  match atoks (slen src) n p (c_line c) (fields_of c) with
  | None => ask src F n c = Fuel
  | Some (ts, p', line', fs') =>
      exists c', ask src F n c = Ok (ts, c') /\ at_ src p' c' /\ c_line c' = line' /\ fields_of c' = fs'
  end.
Proof.
  induction n as [|n IH]; intros p c F H HF Hle; cbn [atoks ask].
  - exists c. auto.
  - pose proof (c_get_token_ok src F p c H HF) as T.
    pose proof (fun k pl p1 d => Hle k pl p1 d p (le_n _)) as Hl.
    destruct (alex p) as [[[[k pl] p1]|] d]; [|rewrite T; reflexivity].
    destruct T as (c1 & -> & A1 & L1 & f1 & f2 & f3 & f4). cbn [obind].
    specialize (Hl _ _ _ _ eq_refl).
    specialize (IH p1 c1 F A1 ltac:(lia)).
    replace (fields_of c1) with (upd pl (fields_of c)) in IH
      by (unfold fields_of, upd; rewrite f1, f2, f3, f4; reflexivity).
    rewrite L1 in IH.
    assert (Hs : mk_token k (pos_of (slen src) p1) (c_line c + d) (upd pl (fields_of c)) = c_snapshot k c1).
    { unfold c_snapshot, fields_of, upd, mk_token. rewrite (at_pos _ _ _ A1), L1, f1, f2, f3, f4. reflexivity. }
    destruct (atoks _ n p1 _ _) as [[[[ts p2] line2] fs2]|].
    + destruct IH as (c2 & -> & A2 & L2 & F2); [intros; eapply Hle; eauto; lia|]. cbn [obind].
      exists c2. rewrite Hs. auto.
    + rewrite IH; [reflexivity|]. intros; eapply Hle; eauto; lia.
Qed.

Lemma newlines_cons c r : Z.of_nat (newlines (c :: r)) = Z.of_nat (newlines r) + if ceqb c ch_nl then 1 else 0.
Proof.
  unfold newlines. cbn [filter]. change (Ascii.eqb c newline) with (ceqb c ch_nl).
  destruct (ceqb c ch_nl); cbn [List.length]; lia.
Qed.

Lemma blank_space c : blank c <-> is_space c = true.
Proof.
  split.
  - intros H. cbn in H. repeat (destruct H as [<-|H]; [reflexivity|]). destruct H.
  - destruct c as [[] [] [] [] [] [] [] []]; intros H; try discriminate H; cbn; tauto.
Qed.

(** Anything [triv] stops at. *)
Definition stop (p : text) : Prop :=
  match p with [] => True | c :: _ => is_space c = false /\ starts_comment p = false end.

Lemma triv_stop p : stop p -> triv false p = (p, 0).
Proof.
  destruct p as [|c r]; [reflexivity|]. intros [H1 H2]. cbn [triv]. rewrite H1.
  destruct r as [|d r]; [reflexivity|]. cbn [starts_comment] in H2. rewrite H2. reflexivity.
Qed.

Lemma triv_true_split : forall p q d, triv true p = (q, d) ->
  (exists body r d', p = body ++ newline :: r /\ ~ In newline body /\ triv false r = (q, d') /\ d = d' + 1) \/
  (~ In newline p /\ q = [] /\ d = 0).
Proof.
  induction p as [|c p IH]; intros q d H; cbn [triv] in H.
  - right. injection H as <- <-. split; [intros []|auto].
  - destruct (ceqb c ch_nl) eqn:E; cbn [negb] in H.
    + left. destruct (triv false p) as [q' d'] eqn:Et. injection H as <- <-.
      apply Ascii.eqb_eq in E. subst c. exists [], p, d'. split; [reflexivity|]. split; [intros []|]. auto.
    + destruct (triv true p) as [q' d'] eqn:Et. injection H as <- <-.
      assert (Hc : c <> newline) by (apply Ascii.eqb_neq; exact E).
      destruct (IH _ _ eq_refl) as [(body & r & d'' & -> & Hb & Ht & ->)|(Hn & -> & ->)].
      * left. exists (c :: body), r, d''. split; [reflexivity|]. split; [intros [->|Hi]; auto|]. split; [auto|lia].
      * right. split; [intros [->|Hi]; auto|]. auto.
Qed.

(** Splitting off the text before a token. *)
Lemma newlines_none body : ~ In newline body -> newlines body = 0%nat.
Proof.
  induction body as [|c b IH]; intros H; [reflexivity|]. unfold newlines in *. cbn [filter].
  destruct (Ascii.eqb c newline) eqn:E.
  - apply Ascii.eqb_eq in E. subst. destruct H. left. reflexivity.
  - apply IH. intros Hi. apply H. right. exact Hi.
Qed.

Lemma triv_split : forall n p q d, (List.length p <= n)%nat -> triv false p = (q, d) ->
  exists g, p = g ++ q /\ Z.of_nat (newlines g) = d /\ (gap g \/ q = [] /\ last_gap g) /\ stop q.
Proof.
  induction n as [|n IH]; intros p q d Hn H; destruct p as [|c r].
  1,3: (injection H as <- <-; exists []; repeat split; auto; left; constructor).
  { cbn in Hn. lia. }
  cbn [List.length] in Hn. destruct (is_space c) eqn:Es.
  - cbn [triv] in H. rewrite Es in H. destruct (triv false r) as [q' d'] eqn:Et. injection H as <- <-.
    destruct (IH r q' d' ltac:(lia) Et) as (g & -> & Hg & Hq & Hs).
    exists (c :: g). split; [reflexivity|]. split; [rewrite newlines_cons; lia|]. split; [|exact Hs].
    apply blank_space in Es. destruct Hq as [Hq|(-> & g' & body & H1 & H2 & ->)].
    + left. constructor; auto.
    + right. split; [reflexivity|]. exists (c :: g'), body. split; [constructor; auto|]. auto.
  - destruct r as [|e r].
    + cbn [triv] in H. rewrite Es in H. injection H as <- <-. exists []. repeat split; auto; left; constructor.
    + destruct (ceqb c "/" && ceqb e "/") eqn:Ec.
      * rewrite (triv_comment _ _ _ Es Ec) in H. apply andb_prop in Ec as [E1 E2].
        apply Ascii.eqb_eq in E1, E2. subst c e.
        cbn [triv] in H. change (negb (ceqb "/" ch_nl)) with true in H. change (ceqb "/" ch_nl) with false in H. cbn iota in H.
        destruct (triv true r) as [q' d'] eqn:Et. injection H as <- <-.
        destruct (triv_true_split _ _ _ Et) as [(body & r' & d'' & -> & Hb & Ht & ->)|(Hb & -> & ->)].
        -- destruct (IH r' q' d'') as (g & -> & Hg & Hq & Hs);
             [cbn [List.length] in Hn; rewrite app_length in Hn; cbn [List.length] in Hn; lia|exact Ht|].
           exists (text_of "//" ++ body ++ [newline] ++ g). split; [cbn; rewrite <- app_assoc; reflexivity|].
           split; [|split; [|exact Hs]].
           ++ cbn [text_of app]. rewrite !newlines_cons, newlines_app, Nat2Z.inj_add, newlines_cons.
              rewrite (newlines_none _ Hb), Hg. change (ceqb newline ch_nl) with true. change (ceqb "/" ch_nl) with false. cbn iota. lia.
           ++ destruct Hq as [Hq|(-> & g' & body' & H1 & H2 & ->)].
              ** left. apply gap_comment; auto.
              ** right. split; [reflexivity|]. exists (text_of "//" ++ body ++ [newline] ++ g'), body'.
                 split; [apply gap_comment; auto|]. split; [exact H2|].
                 rewrite <- !app_assoc. reflexivity.
        -- exists (text_of "//" ++ r). split; [cbn; rewrite app_nil_r; reflexivity|]. split; [|split; [|exact I]].
           ++ cbn [text_of app]. rewrite !newlines_cons, (newlines_none _ Hb). reflexivity.
           ++ right. split; [reflexivity|]. exists [], r. split; [constructor|]. auto.
      * cbn [triv] in H. rewrite Es, Ec in H. injection H as <- <-. exists []. repeat split; auto; left; constructor.
Qed.

Lemma triv_cmt body y : ~ In newline body ->
  triv true (body ++ newline :: y) = let '(q, d) := triv false y in (q, d + 1).
Proof.
  induction body as [|c b IH]; intros H; cbn [app].
  - cbn [triv]. reflexivity.
  - cbn [triv]. assert (Hc : ceqb c ch_nl = false).
    { apply Ascii.eqb_neq. intros ->. apply H. left. reflexivity. }
    rewrite Hc. cbn [negb]. rewrite IH by (intros Hi; apply H; right; exact Hi).
    destruct (triv false y) as [q d]. f_equal. lia.
Qed.

Lemma triv_gap g : gap g -> forall y,
  triv false (g ++ y) = let '(q, d) := triv false y in (q, d + Z.of_nat (newlines g)).
Proof.
  induction 1 as [|c w Hb Hg IH|body w Hb Hg IH]; intros y.
  - cbn [app]. destruct (triv false y). f_equal. cbn. lia.
  - cbn [app]. cbn [triv]. apply blank_space in Hb. rewrite Hb, IH.
    destruct (triv false y). rewrite newlines_cons. f_equal. lia.
  - replace ((text_of "//" ++ body ++ [newline] ++ w) ++ y)
      with ("/"%char :: "/"%char :: body ++ newline :: (w ++ y))
      by (cbn; rewrite <- app_assoc; reflexivity).
    rewrite triv_comment by reflexivity. cbn [triv]. change (ceqb "/" ch_nl) with false. cbn [negb].
    rewrite triv_cmt by exact Hb. rewrite IH. destruct (triv false y) as [q d]. f_equal.
    cbn [text_of app]. rewrite !newlines_cons, newlines_app, Nat2Z.inj_add, newlines_cons, (newlines_none _ Hb).
    change (ceqb newline ch_nl) with true. change (ceqb "/" ch_nl) with false. cbn iota. lia.
Qed.

(** ** A token depends on its own characters and little more *)
Lemma find2_in t a b k : find2 t a b = Some k -> In (a, b, k) t.
Proof.
  induction t as [|[[x y] k'] t IH]; cbn [find2]; [discriminate|].
  destruct (ceqb a x && ceqb b y) eqn:E; [|right; auto].
  intros H. injection H as ->. apply andb_prop in E as [E1 E2]. apply Ascii.eqb_eq in E1, E2. subst. left. reflexivity.
Qed.
Lemma find1_in t a k : find1 t a = Some k -> In (a, k) t.
Proof.
  induction t as [|[x k'] t IH]; cbn [find1]; [discriminate|].
  destruct (ceqb a x) eqn:E; [|right; auto].
  intros H. injection H as ->. apply Ascii.eqb_eq in E. subst. left. reflexivity.
Qed.

Definition second_ok (c : ascii) : bool :=
  existsb (Ascii.eqb c) (text_of "&|=:><").

Lemma find2_second a b : second_ok b = false -> find2 match2_table a b = None.
Proof.
  intros H. destruct (find2 match2_table a b) as [k|] eqn:E; [|reflexivity].
  apply find2_in in E. cbn in E.
  repeat (destruct E as [E|E]; [injection E as <- <- <-; discriminate H|]). destruct E.
Qed.

Lemma find2_dot b : find2 match2_table "." b = None.
Proof. reflexivity. Qed.

Definition litstart (c : ascii) : bool := is_alpha c || is_digit c || ceqb c ch_quote || ceqb c ch_dquote.
Definition opstart (c : ascii) : bool := existsb (Ascii.eqb c) (text_of "&|:+-*/%=!<>(){}[],;.?").

Lemma lit_not_op c : litstart c = true -> opstart c = false.
Proof. destruct c as [[] [] [] [] [] [] [] []]; intros H; try discriminate H; reflexivity. Qed.

Lemma not_op_find2 c b : opstart c = false -> find2 match2_table c b = None.
Proof.
  intros H. destruct (find2 match2_table c b) as [k|] eqn:E; [|reflexivity].
  apply find2_in in E. cbn in E.
  repeat (destruct E as [E|E]; [injection E as <- <- <-; discriminate H|]). destruct E.
Qed.
Lemma not_op_find1 c : opstart c = false -> find1 match1_table c = None.
Proof.
  intros H. destruct (find1 match1_table c) as [k|] eqn:E; [|reflexivity].
  apply find1_in in E. cbn in E.
  repeat (destruct E as [E|E]; [injection E as <- <-; discriminate H|]). destruct E.
Qed.
Lemma not_op_m2 c r : opstart c = false -> m2 (c :: r) = None.
Proof. intros H. destruct r; [reflexivity|]. apply not_op_find2; exact H. Qed.
Lemma not_op_ell c r : opstart c = false -> is_ellipsis (c :: r) = false.
Proof.
  intros H. destruct r as [|a [|b r]]; try reflexivity. cbn [is_ellipsis].
  destruct (ceqb c ".") eqn:E; [|reflexivity]. apply Ascii.eqb_eq in E. subst. discriminate H.
Qed.
Lemma not_op_stop c r : opstart c = false -> is_space c = false -> stop (c :: r).
Proof.
  intros H H2. split; [exact H2|]. destruct r as [|d r]; [reflexivity|]. cbn [starts_comment].
  destruct (ceqb c "/") eqn:E; [|reflexivity]. apply Ascii.eqb_eq in E. subst. discriminate H.
Qed.

(** What may follow a token of kind [k] without changing it. *)
Definition sep (k : tokkind) (w : text) : Prop :=
  match w with [] => True | c :: _ => is_space c = true \/ (c = "/"%char /\ k <> SLASH) end.

Definition follow (k : tokkind) (r r' : text) : Prop :=
  sep k r' \/
  exists h t t', r = h :: t /\ r' = h :: t' /\ (hd_error t' = Some "."%char -> hd_error t = Some "."%char).

Lemma span_split f p a b : span f p = (a, b) -> p = a ++ b /\ Forall (fun c => f c = true) a /\
  match b with c :: _ => f c = false | [] => True end.
Proof.
  revert a b; induction p as [|c p IH]; intros a b H; cbn [span] in H.
  - injection H as <- <-. auto.
  - destruct (f c) eqn:E.
    + destruct (span f p) as [a' b']. injection H as <- <-. destruct (IH _ _ eq_refl) as (-> & H1 & H2).
      repeat split; auto.
    + injection H as <- <-. auto.
Qed.

Lemma span_join f a b : Forall (fun c => f c = true) a -> match b with c :: _ => f c = false | [] => True end ->
  span f (a ++ b) = (a, b).
Proof.
  induction 1 as [|c a H1 H2 IH]; intros Hb; cbn [app].
  - destruct b as [|c b]; cbn [span]; [reflexivity|]. rewrite Hb. reflexivity.
  - cbn [span]. rewrite H1, (IH Hb). reflexivity.
Qed.

Lemma anum_split : forall p hx fl a h f b, anum hx fl p = (a, h, f, b) -> p = a ++ b /\
  (numc hx fl (hd " "%char p) = true -> a <> []) /\
  Forall (fun c => is_space c = false) a /\
  (forall b', match b' with [] => True | c :: _ => (is_space c = true \/ c = "/"%char) \/ hd_error b = Some c end ->
     anum hx fl (a ++ b') = (a, h, f, b')).
Proof.
  induction p as [|c p IH]; intros hx fl a h f b H; cbn [anum] in H.
  - injection H as <- <- <- <-. split; [reflexivity|]. split.
    { cbn [hd]. intros E. exfalso. destruct hx, fl; discriminate E. }
    split; [constructor|].
    intros [|c b'] Hb'; [reflexivity|]. cbn [app anum]. destruct Hb' as [Hb'|Hb']; [|discriminate].
    replace (numc hx fl c) with false; [reflexivity|]. symmetry.
    destruct Hb' as [Hb'|Hb'].
    + destruct c as [[] [] [] [] [] [] [] []]; try discriminate Hb'; destruct hx, fl; reflexivity.
    + subst c. destruct hx, fl; reflexivity.
  - destruct (numc hx fl c) eqn:En.
    + set (h1 := if ceqb c "x" then true else hx) in *.
      set (f1 := if ceqb c "x" then fl else if ceqb c "." then true else fl) in *.
      destruct (anum h1 f1 p) as [[[a' h'] f'] b''] eqn:Ea. injection H as <- <- <- <-.
      destruct (IH _ _ _ _ _ _ Ea) as (-> & _ & Hs & Hloc). split; [reflexivity|]. split; [discriminate|]. split.
      * constructor; [|exact Hs]. destruct (is_space c) eqn:Ec; [|reflexivity].
        destruct c as [[] [] [] [] [] [] [] []]; try discriminate Ec; destruct hx, fl; discriminate En.
      * intros b' Hb'. cbn [app anum]. rewrite En. fold h1 f1. rewrite (Hloc b' Hb'). reflexivity.
    + injection H as <- <- <- <-. split; [reflexivity|]. split; [cbn [hd]; congruence|]. split; [constructor|].
      intros [|c' b'] Hb'; [reflexivity|]. cbn [app anum].
      replace (numc hx fl c') with false; [reflexivity|]. symmetry.
      destruct Hb' as [[Hb'|Hb']|Hb'].
      * destruct c' as [[] [] [] [] [] [] [] []]; try discriminate Hb'; destruct hx, fl; reflexivity.
      * subst c'. destruct hx, fl; reflexivity.
      * injection Hb' as <-. exact En.
Qed.

Lemma astr_split : forall n p s r, (List.length p <= n)%nat -> astr p = Some (s, r) ->
  exists x, p = x ++ ch_dquote :: r /\ str_body x /\ forall w, astr (x ++ ch_dquote :: w) = Some (s, w).
Proof.
  induction n as [|n IH]; intros p s r Hn H; (destruct p as [|c p]; [discriminate|]); cbn [List.length] in Hn; [lia|].
  cbn [astr] in H. destruct (ceqb c ch_dquote) eqn:Eq.
  - injection H as <- <-. apply Ascii.eqb_eq in Eq. subst c. exists []. split; [reflexivity|]. split; [constructor|reflexivity].
  - destruct (ceqb c ch_bslash) eqn:Eb.
    + destruct p as [|e p]; [discriminate|]. cbn [List.length] in Hn.
      destruct (astr p) as [[s' r']|] eqn:Ea; [|discriminate]. injection H as <- <-.
      destruct (IH p s' r' ltac:(lia) Ea) as (x & -> & Hx & Hw). apply Ascii.eqb_eq in Eb. subst c.
      exists (ch_bslash :: e :: x). split; [reflexivity|]. split; [constructor; exact Hx|].
      intros w. cbn [app astr]. rewrite Hw. reflexivity.
    + destruct (astr p) as [[s' r']|] eqn:Ea; [|discriminate]. injection H as <- <-.
      destruct (IH p s' r' ltac:(lia) Ea) as (x & -> & Hx & Hw).
      exists (c :: x). split; [reflexivity|]. split.
      * constructor; [apply Ascii.eqb_neq; exact Eq|apply Ascii.eqb_neq; exact Eb|exact Hx].
      * intros w. cbn [app astr]. rewrite Eq, Eb, Hw. reflexivity.
Qed.

Lemma astr_closed x : str_body x -> forall w, exists s, astr (x ++ ch_dquote :: w) = Some (s, w).
Proof.
  induction 1 as [|c x H1 H2 Hx IH|e x Hx IH]; intros w; cbn [app astr].
  - eexists; reflexivity.
  - apply Ascii.eqb_neq in H1, H2. unfold ceqb. rewrite H1, H2. destruct (IH w) as [s ->]. eexists; reflexivity.
  - change (ceqb ch_bslash ch_dquote) with false. change (ceqb ch_bslash ch_bslash) with true. cbn iota.
    destruct (IH w) as [s ->]. eexists; reflexivity.
Qed.

Lemma astr_none q : astr q = None <-> ~ closed q.
Proof.
  split.
  - intros H (x & r & -> & Hx). destruct (astr_closed x Hx r) as [s E]. congruence.
  - intros H. destruct (astr q) as [[s r]|] eqn:E; [|reflexivity].
    destruct H. destruct (astr_split _ _ _ _ (le_n _) E) as (x & -> & Hx & _). exists x, r. auto.
Qed.

Lemma nospace_newlines x : Forall (fun c => is_space c = false) x -> newlines x = 0%nat.
Proof.
  induction 1 as [|c x H Hx IH]; [reflexivity|]. unfold newlines in *. cbn [filter].
  destruct (Ascii.eqb c newline) eqn:E; [|exact IH]. apply Ascii.eqb_eq in E. subst. discriminate H.
Qed.

Lemma identc_nospace c : identc c = true -> is_space c = false.
Proof. destruct c as [[] [] [] [] [] [] [] []]; intros H; try discriminate H; reflexivity. Qed.

Lemma sep_not_ident k w : sep k w -> match w with c :: _ => identc c = false | [] => True end.
Proof.
  destruct w as [|c w]; [auto|]. intros [H|[-> _]]; [|reflexivity].
  destruct c as [[] [] [] [] [] [] [] []]; try discriminate H; reflexivity.
Qed.

Lemma sep_second k c w : sep k (c :: w) -> second_ok c = false.
Proof.
  intros [H|[-> _]]; [|reflexivity].
  destruct c as [[] [] [] [] [] [] [] []]; try discriminate H; reflexivity.
Qed.
Lemma sep_dot k c w : sep k (c :: w) -> ceqb c "." = false.
Proof.
  intros [H|[-> _]]; [|reflexivity].
  destruct c as [[] [] [] [] [] [] [] []]; try discriminate H; reflexivity.
Qed.

(** Shape of a proper token: the characters [x] it is made of. *)
Record tok_shape (p : text) (k : tokkind) (pl : payload) (r : text) (x : text) : Prop := mkShape {
  ts_split : p = x ++ r;
  ts_ne : x <> [];
  ts_nl : k <> STRING -> k <> CHAR -> newlines x = 0%nat;
  ts_local : forall r', follow k r r' -> acore (x ++ r') = Some (k, pl, r') /\ (stop p -> stop (x ++ r')) }.

Lemma find1_opstart c k : find1 match1_table c = Some k -> opstart c = true.
Proof. intros H. destruct (opstart c) eqn:E; [reflexivity|]. rewrite (not_op_find1 c E) in H. discriminate. Qed.
Lemma find2_opstart c d k : find2 match2_table c d = Some k -> opstart c = true /\ ceqb c "." = false /\ is_space c = false
   /\ is_space d = false /\ ceqb d "/" = false.
Proof.
  intros H. apply find2_in in H. cbn in H.
  repeat (destruct H as [H|H]; [injection H as <- <- <-; repeat split; reflexivity|]). destruct H.
Qed.
Lemma find1_props c k : find1 match1_table c = Some k -> is_space c = false /\ (c = "/"%char -> k = SLASH) /\
   proper k /\ k <> STRING /\ k <> CHAR.
Proof.
  intros H. apply find1_in in H. cbn in H.
  repeat (destruct H as [H|H]; [injection H as <- <-; repeat split; congruence|]). destruct H.
Qed.
Lemma find2_kind c d k : find2 match2_table c d = Some k -> proper k /\ k <> STRING /\ k <> CHAR.
Proof.
  intros H. apply find2_in in H. cbn in H.
  repeat (destruct H as [H|H]; [injection H as <- <- <-; repeat split; congruence|]). destruct H.
Qed.
Lemma kw_kind s : let k := find_kw keyword_table s in proper k /\ k <> STRING /\ k <> CHAR.
Proof.
  cbn zeta. unfold keyword_table. cbn [find_kw].
  repeat (match goal with |- context [if ?b then _ else _] => destruct b end; [repeat split; congruence|]).
  repeat split; congruence.
Qed.

Lemma digit_lit c : is_digit c = true -> litstart c = true.
Proof. intros H. unfold litstart. rewrite H, orb_true_r. reflexivity. Qed.
Lemma alpha_lit c : is_alpha c = true -> litstart c = true.
Proof. intros H. unfold litstart. rewrite H. reflexivity. Qed.
Lemma lit_nospace c : litstart c = true -> is_space c = false.
Proof. destruct c as [[] [] [] [] [] [] [] []]; intros H; try discriminate H; reflexivity. Qed.

Lemma acore_lit c rest : litstart c = true -> acore (c :: rest) =
      if is_alpha c then
        let '(s, r) := span identc (c :: rest) in
        let k := find_kw keyword_table s in
        Some (k, mkPay (Some s)
                   match k with BOOL => Some (text_eqb s (text_of "true")) | _ => None end
                   None None, r)
      else if is_digit c then
        let '(s, isHex, isFloat, r) := anum false false (c :: rest) in
        if isFloat then Some (FLOAT, mkPay (Some s) None None (Some (f_single (strtod s))), r)
        else Some (INT, mkPay (Some s) None (Some (int_value isHex s)) None, r)
      else if ceqb c ch_quote then Some (achar rest)
      else match astr rest with
        | None => None
        | Some (s, r) => Some (STRING, pay_lex s, r)
        end.
Proof.
  intros H. pose proof (lit_not_op _ H) as Ho. unfold acore.
  rewrite (not_op_ell _ _ Ho), (not_op_m2 _ _ Ho), (not_op_find1 _ Ho).
  destruct (is_alpha c) eqn:E1; [reflexivity|]. destruct (is_digit c) eqn:E2; [reflexivity|].
  destruct (ceqb c ch_quote) eqn:E3; [reflexivity|]. destruct (ceqb c ch_dquote) eqn:E4; [reflexivity|].
  exfalso. unfold litstart in H. rewrite E1, E2, E3, E4 in H. discriminate H.
Qed.

Lemma achar_split rest k pl r : achar rest = (k, pl, r) -> proper k ->
  k = CHAR /\ exists x, rest = x ++ r /\ x <> [] /\ forall r', achar (x ++ r') = (k, pl, r').
Proof.
  intros H [_ Hk]. unfold achar in H.
  destruct rest as [|c1 r1].
  { injection H as <- _ _. congruence. }
  destruct (ceqb c1 ch_bslash) eqn:Eb.
  - destruct r1 as [|e r1].
    { injection H as <- _ _. congruence. }
    destruct r1 as [|q r3]; [injection H as <- _ _; congruence|].
    destruct (ceqb q ch_quote) eqn:Eq; [|injection H as <- _ _; congruence].
    injection H as <- <- <-. split; [reflexivity|].
    exists [c1; e; q]. split; [reflexivity|]. split; [discriminate|].
    intros r'. unfold achar. cbn [app]. rewrite Eb, Eq. reflexivity.
  - destruct r1 as [|q r3]; [injection H as <- _ _; congruence|].
    destruct (ceqb q ch_quote) eqn:Eq; [|injection H as <- _ _; congruence].
    injection H as <- <- <-. split; [reflexivity|].
    exists [c1; q]. split; [reflexivity|]. split; [discriminate|].
    intros r'. unfold achar. cbn [app]. rewrite Eb, Eq. reflexivity.
Qed.

Lemma acore_shape p k pl r : acore p = Some (k, pl, r) -> proper k -> exists x, tok_shape p k pl r x.
Proof.
  intros H Hk. destruct p as [|c rest]; [injection H as <- _ _; destruct Hk; congruence|].
  destruct (litstart c) eqn:Hl.
  - pose proof (lit_not_op _ Hl) as Ho. pose proof (lit_nospace _ Hl) as Hs.
    assert (St : forall y, stop (c :: y)) by (intros; apply not_op_stop; auto).
    rewrite (acore_lit _ _ Hl) in H.
    destruct (is_alpha c) eqn:Ea; [|destruct (is_digit c) eqn:Ed; [|destruct (ceqb c ch_quote) eqn:Eq]].
    + destruct (span identc (c :: rest)) as [s r0] eqn:Es. injection H as <- <- <-.
      destruct (span_split _ _ _ _ Es) as (E1 & E2 & E3).
      destruct s as [|c' s].
      { exfalso. cbn [span] in Es. unfold identc at 1, is_alnum in Es. rewrite Ea in Es. cbn [orb] in Es.
        destruct (span identc rest). discriminate Es. }
      cbn [app] in E1. injection E1 as <- ->.
      exists (c :: s). split; auto; [discriminate| |].
      * intros _ _. apply nospace_newlines. eapply Forall_impl; [|exact E2]. intros a. apply identc_nospace.
      * intros r' Hf. split; [|intros _; apply St]. cbn [app]. rewrite (acore_lit _ _ Hl), Ea.
        replace (span identc (c :: s ++ r')) with (c :: s, r'); [reflexivity|]. symmetry.
        apply (span_join identc (c :: s) r' E2).
        destruct Hf as [Hf|(h & t & t' & -> & -> & _)]; [apply (sep_not_ident _ _ Hf)|exact E3].
    + destruct (anum false false (c :: rest)) as [[[s h] f] r0] eqn:Es.
      destruct (anum_split _ _ _ _ _ _ _ Es) as (E1 & E2 & E3 & E4).
      assert (Hn : s <> []).
      { apply E2. cbn [hd]. unfold numc. rewrite Ed. reflexivity. }
      assert (Eloc : forall r', follow k r0 r' -> anum false false (s ++ r') = (s, h, f, r')).
      { intros r' Hf. apply E4. destruct r' as [|a r']; [auto|].
        destruct Hf as [[Hf|[-> _]]|(h' & t & t' & -> & Eh & _)]; [auto|auto|].
        injection Eh as -> ->. right. reflexivity. }
      assert (Hr : r = r0 /\ (k = FLOAT \/ k = INT)) by (destruct f; injection H as <- _ <-; auto).
      destruct Hr as [-> Hk'].
      destruct s as [|c' s]; [congruence|]. cbn [app] in E1. injection E1 as <- ->.
      exists (c :: s). split; auto.
      * intros _ _. apply nospace_newlines. exact E3.
      * intros r' Hf. split; [|intros _; apply St]. specialize (Eloc r' Hf). cbn [app] in Eloc |- *.
        rewrite (acore_lit _ _ Hl), Ea, Ed. rewrite Eloc.
        destruct f; injection H as <- <-; reflexivity.
    + injection H as H. destruct (achar_split _ _ _ _ H Hk) as (-> & x & -> & Hne & Hx).
      exists (c :: x). split; auto; [discriminate|congruence|].
      intros r' _. split; [|intros _; apply St]. cbn [app]. rewrite (acore_lit _ _ Hl), Ea, Ed, Eq, Hx. reflexivity.
    + destruct (astr rest) as [[s r0]|] eqn:Es; [|discriminate]. injection H as <- <- <-.
      destruct (astr_split _ _ _ _ (le_n _) Es) as (x & -> & Hx & Hw).
      exists (c :: x ++ [ch_dquote]). split.
      * cbn [app]. rewrite <- app_assoc. reflexivity.
      * discriminate.
      * congruence.
      * intros r' _. cbn [app]. rewrite <- app_assoc. cbn [app]. split; [|intros _; apply St].
        rewrite (acore_lit _ _ Hl), Ea, Ed, Eq, Hw. reflexivity.
  - unfold acore in H.
    destruct (is_ellipsis (c :: rest)) eqn:Ee.
    + destruct rest as [|c1 [|c2 rest]]; try discriminate Ee. injection H as <- <- <-.
      exists [c; c1; c2]. cbn [is_ellipsis] in Ee. apply andb_prop in Ee as [Ee E3]. apply andb_prop in Ee as [E1 E2].
      apply Ascii.eqb_eq in E1, E2, E3. subst. split; [reflexivity|discriminate|reflexivity|].
      intros r' _. cbn [app]. split; [reflexivity|]. intros _. split; reflexivity.
    + destruct (m2 (c :: rest)) as [k2|] eqn:E2.
      * destruct rest as [|c1 rest]; [discriminate|]. injection H as <- <- <-. cbn [m2] in E2.
        destruct (find2_opstart _ _ _ E2) as (A1 & A2 & A3 & A4 & A5). destruct (find2_kind _ _ _ E2) as (B1 & B2 & B3).
        exists [c; c1]. split; [reflexivity|discriminate| |].
        -- intros _ _. apply nospace_newlines. repeat constructor; auto.
        -- intros r' _. cbn [app]. split.
           ++ unfold acore. replace (is_ellipsis (c :: c1 :: r')) with false
                by (destruct r'; cbn [is_ellipsis]; [reflexivity|rewrite A2; reflexivity]).
              cbn [m2]. rewrite E2. reflexivity.
           ++ intros _. split; [exact A3|]. cbn [starts_comment]. rewrite A5, andb_false_r. reflexivity.
      * destruct (find1 match1_table c) as [k1|] eqn:E1.
        -- injection H as <- <- <-. destruct (find1_props _ _ E1) as (A1 & A2 & A3 & A4 & A5).
           exists [c]. split; [reflexivity|discriminate| |].
           ++ intros _ _. apply nospace_newlines. repeat constructor; auto.
           ++ intros r' Hf. cbn [app].
              assert (M : m2 (c :: r') = None).
              { destruct r' as [|d r']; [reflexivity|]. cbn [m2]. destruct Hf as [Hf|(h & t & t' & -> & Eh & _)].
                - apply find2_second. apply (sep_second _ _ _ Hf).
                - injection Eh as -> ->. exact E2. }
              assert (E : is_ellipsis (c :: r') = false).
              { destruct r' as [|d [|e r']]; [reflexivity|reflexivity|]. cbn [is_ellipsis].
                destruct Hf as [Hf|(h & t & t' & -> & Eh & Hd)].
                - rewrite (sep_dot _ _ _ Hf), andb_false_r. reflexivity.
                - injection Eh as Eh1 Eh2. subst h t'. cbn [hd_error] in Hd.
                  destruct (ceqb e ".") eqn:Ee'; [|apply andb_false_r].
                  apply Ascii.eqb_eq in Ee'. subst e. specialize (Hd eq_refl).
                  destruct t as [|e t]; [discriminate|]. injection Hd as ->. exact Ee. }
              split; [unfold acore; rewrite E, M, E1; reflexivity|].
              intros [S1 S2]. split; [exact S1|]. destruct r' as [|d r']; [reflexivity|]. cbn [starts_comment].
              destruct Hf as [Hf|(h & t & t' & -> & Eh & _)].
              ** destruct (ceqb c "/") eqn:Ec; [|reflexivity]. apply Ascii.eqb_eq in Ec.
                 destruct Hf as [Hf|[-> Hf]]; [|destruct Hf; auto].
                 destruct (ceqb d "/") eqn:Ed; [|reflexivity]. apply Ascii.eqb_eq in Ed. subst d. discriminate Hf.
              ** injection Eh as -> ->. exact S2.
        -- exfalso. unfold litstart in Hl. apply orb_false_elim in Hl as [Hl H4]. apply orb_false_elim in Hl as [Hl H3].
           apply orb_false_elim in Hl as [H1 H2]. rewrite H1, H2, H3, H4 in H.
           injection H as <- _ _. destruct Hk; congruence.
Qed.
