From Verif Require Import Base Pos PosProofs ErrFmt ErrFmtSpec.
Local Open Scope nat_scope.

(** [Pr b0 o s]: [o] has printed [s] into [b0]; at the very start the
    terminator is still missing. *)
Definition Pr (b0 : text) (o : out) (s : text) : Prop :=
  oused o = length s /\ (ob o = printed b0 s \/ (s = [] /\ ob o = b0)).

Lemma printed_length b s : length (printed b s) = length b.
Proof.
  unfold printed. destruct (length b) as [|n] eqn:E; [reflexivity|].
  rewrite app_length. cbn [length]. rewrite skipn_length, firstn_length, E. lia.
Qed.

Lemma firstn_app_exact {A} (l r : list A) n : length l = n -> firstn n (l ++ r) = l.
Proof. intros <-. rewrite firstn_app, Nat.sub_diag, firstn_all. apply app_nil_r. Qed.

Lemma skipn_app_exact {A} (l r : list A) n : length l = n -> skipn n (l ++ r) = r.
Proof. intros <-. rewrite skipn_app, Nat.sub_diag, skipn_all. reflexivity. Qed.

Lemma append_Pr b0 o s t : Pr b0 o s -> exists o', append o t = Ok o' /\ Pr b0 o' (s ++ t) /\
  (0 < length b0 -> ob o' = printed b0 (s ++ t)) .
Proof.
  intros [U B]. unfold append.
  assert (L : length (ob o) = length b0) by (destruct B as [->|[_ ->]]; [apply printed_length|reflexivity]).
  rewrite L, U. destruct (length b0 - length s) as [|r] eqn:R.
  - cbn [snprintf obind]. eexists; split; [reflexivity|].
    assert (X : ob o = printed b0 (s ++ t) \/ length b0 = 0).
    { destruct B as [B|[-> B]]; [|right; simpl in R; lia].
      destruct (length b0) as [|n] eqn:Eb; [auto|]. left. rewrite B. unfold printed. rewrite Eb.
      rewrite firstn_app. replace (n - length s) with 0 by lia. cbn [firstn]. rewrite app_nil_r. reflexivity. }
    split.
    + split; cbn; [rewrite app_length; lia|].
      left. destruct X as [X|X]; [exact X|].
      unfold printed. rewrite X. apply length_zero_iff_nil. lia.
    + intros Hn. destruct X as [X|X]; [exact X|lia].
  - cbn [snprintf]. unfold write_text.
    rewrite app_length. cbn [length]. rewrite firstn_length, L.
    replace (length s + (Nat.min r (length t) + 1) <=? length b0) with true by (symmetry; apply Nat.leb_le; lia).
    cbn [obind]. eexists; split; [reflexivity|]. 
    assert (X : firstn (length s) (ob o) ++ (firstn r t ++ ["000"%char]) ++
                skipn (length s + (Nat.min r (length t) + 1)) (ob o) = printed b0 (s ++ t)).
    { unfold printed. destruct (length b0) as [|n] eqn:Eb; [lia|].
      assert (Es : firstn n (s ++ t) = s ++ firstn r t).
      { rewrite firstn_app. rewrite firstn_all2 by lia. f_equal. f_equal. lia. }
      rewrite Es. rewrite <- !app_assoc. f_equal.
      - destruct B as [->|[-> _]]; [|reflexivity]. unfold printed. rewrite Eb.
        rewrite (firstn_all2 s (n := n)) by lia. apply firstn_app_exact. reflexivity.
      - f_equal. cbn [app]. f_equal. rewrite app_length, firstn_length.
        destruct B as [->|[-> ->]].
        + unfold printed. rewrite Eb. rewrite (firstn_all2 s (n := n)) by lia.
          replace (s ++ "000"%char :: skipn (S (length s)) b0)
            with ((s ++ ["000"%char]) ++ skipn (S (length s)) b0) by (rewrite <- app_assoc; reflexivity).
          rewrite skipn_app. rewrite (skipn_all2 (s ++ _)) by (rewrite app_length; cbn [length]; lia).
          cbn [app]. rewrite skipn_add. f_equal. rewrite app_length. cbn [length]. lia.
        + cbn [length]. f_equal. lia. }
    split; [|intros _; exact X]. split; cbn [oused ob]; [rewrite app_length; lia|left; exact X].
Qed.

(** Cut a source at its first newline. *)
Fixpoint upto (src : text) : text * text :=
  match src with
  | [] => ([], [])
  | c :: src' => if Ascii.eqb c newline then ([], src)
                 else let '(a, r) := upto src' in (c :: a, r)
  end.

Lemma copy_line_Pr b0 src : forall o s, Pr b0 o s ->
  exists o', copy_line o src = Ok (o', snd (upto src)) /\ Pr b0 o' (s ++ fst (upto src)).
Proof.
  induction src as [|c src IH]; intros o s H; cbn [copy_line upto].
  - exists o. cbn. rewrite app_nil_r. auto.
  - destruct (Ascii.eqb c newline); [exists o; cbn; rewrite app_nil_r; auto|].
    destruct (append_Pr b0 o s [c] H) as (o1 & -> & H1 & _). cbn [obind].
    destruct (IH o1 _ H1) as (o2 & E & H2). exists o2. destruct (upto src) as [a r].
    cbn [fst snd] in *. rewrite E. split; [reflexivity|]. rewrite <- app_assoc in H2. exact H2.
Qed.

Lemma lines_upto src : forall acc,
  lines_from acc src =
  match snd (upto src) with
  | [] => match acc ++ fst (upto src) with [] => [] | l => [l] end
  | c :: rest => (acc ++ fst (upto src) ++ [c]) :: lines_from [] rest
  end.
Proof.
  induction src as [|c src IH]; intros acc; cbn [upto lines_from].
  - cbn. rewrite app_nil_r. destruct acc; reflexivity.
  - destruct (Ascii.eqb c newline) eqn:E.
    + cbn. reflexivity.
    + rewrite IH. destruct (upto src) as [a r]. cbn [fst snd].
      destruct r as [|d r]; rewrite <- ?app_assoc; reflexivity.
Qed.

Lemma upto_app src : fst (upto src) ++ snd (upto src) = src.
Proof.
  induction src as [|c src IH]; [reflexivity|]. cbn [upto].
  destruct (Ascii.eqb c newline); [reflexivity|]. destruct (upto src). cbn in *. congruence.
Qed.

Lemma upto_head src : match snd (upto src) with [] => True | c :: _ => c = newline end.
Proof.
  induction src as [|c src IH]; cbn [upto]; [exact I|].
  destruct (Ascii.eqb c newline) eqn:E; [apply Ascii.eqb_eq; exact E|].
  destruct (upto src) as [a r]. exact IH.
Qed.

Lemma near_spec line n : near line n = (n <=? line + 3) && (line <=? n + 3).
Proof.
  unfold near. destruct (Nat.leb_spec (line - n) 3), (Nat.leb_spec (n - line) 3),
    (Nat.leb_spec n (line + 3)), (Nat.leb_spec line (n + 3)); try reflexivity; lia.
Qed.

(** [mid]: we are inside a far line whose remainder is skipped; [acc] is what
    was skipped of it. *)
Lemma fmt_lines_Pr b0 line : forall fuel src cur acc o s,
  Pr b0 o s -> length src < fuel -> (acc <> [] -> near line cur = false) ->
  exists o', fmt_lines fuel o src line cur = Ok o' /\
    Pr b0 o' (s ++ shown line cur (lines_from acc src)).
Proof.
  induction fuel as [|fuel IH]; intros src cur acc o s HP Hf Hacc; [lia|].
  cbn [fmt_lines]. destruct src as [|c src'].
  - exists o. split; [reflexivity|]. cbn [lines_from]. destruct acc as [|a acc].
    + cbn [shown]. rewrite app_nil_r. exact HP.
    + cbn [shown]. unfold shown_line. rewrite near_spec in Hacc. rewrite Hacc by discriminate.
      cbn [app]. rewrite app_nil_r. exact HP.
  - destruct (near line cur) eqn:Nr.
    + assert (acc = []) as -> by (destruct acc; [reflexivity|discriminate Hacc; discriminate]).
      assert (Hd : exists o1, (if cur =? line then append o (dec cur ++ text_of " ->" ++ [tab])
                               else append o (dec cur ++ [tab])) = Ok o1 /\
                   Pr b0 o1 (s ++ dec cur ++ (if cur =? line then text_of " ->" else []) ++ [tab])).
      { destruct (cur =? line).
        - destruct (append_Pr b0 o s (dec cur ++ text_of " ->" ++ [tab]) HP) as (o1 & -> & H1 & _). eauto.
        - destruct (append_Pr b0 o s (dec cur ++ [tab]) HP) as (o1 & -> & H1 & _). eauto. }
      destruct Hd as (o1 & -> & H1). cbn [obind].
      set (src := c :: src') in *.
      destruct (copy_line_Pr b0 src o1 _ H1) as (o2 & E2 & H2). rewrite E2. cbn [obind].
      rewrite (lines_upto src []). pose proof (upto_app src) as UA. pose proof (upto_head src) as UH.
      destruct (snd (upto src)) as [|d rest] eqn:Er.
      * rewrite app_nil_r in UA. cbn [app]. rewrite UA in H2 |- *. unfold src at 1.
        destruct (IH [] (S cur) [] o2 _ H2) as (o3 & E3 & H3); [cbn; unfold src in Hf; cbn in Hf; lia|congruence|].
        exists o3. split; [exact E3|]. cbn [lines_from shown] in H3 |- *. rewrite app_nil_r in H3.
        unfold shown_line. rewrite <- near_spec, Nr. rewrite !app_nil_r.
        fold src. rewrite <- !app_assoc in H3. exact H3.
      * subst d. destruct (append_Pr b0 o2 _ [newline] H2) as (o3 & -> & H3 & _). cbn [obind].
        destruct (IH rest (S cur) [] o3 _ H3) as (o4 & E4 & H4); [|congruence|].
        { apply (f_equal (@length ascii)) in UA. rewrite app_length in UA. cbn [length] in UA. lia. }
        exists o4. split; [exact E4|]. cbn [shown]. unfold shown_line at 1. rewrite <- near_spec, Nr.
        rewrite <- !app_assoc in H4. rewrite <- !app_assoc. exact H4.
    + cbn [lines_from]. destruct (Ascii.eqb c newline) eqn:Ec.
      * destruct (IH src' (S cur) [] o s HP) as (o1 & E1 & H1); [cbn in Hf; lia|congruence|].
        exists o1. split; [exact E1|]. cbn [shown]. unfold shown_line at 1. rewrite <- near_spec, Nr.
        exact H1.
      * destruct (IH src' cur (acc ++ [c]) o s HP) as (o1 & E1 & H1); [cbn in Hf; lia|auto|]. eauto.
Qed.

Lemma format_error_L buf file src pos msg :
  (0 <= pos <= Z.of_nat (length src))%Z ->
  format_error buf file (Some src) pos msg =
  Ok (printed buf (error_text file src msg (1 + newlines (firstn (Z.to_nat pos) src)))).
Proof.
  intros Hp. unfold format_error, error_text.
  assert (P0 : Pr buf (mkOut buf 0) []) by (split; [reflexivity|right; auto]).
  destruct (append_Pr buf _ _ [newline] P0) as (o0 & -> & H0 & _). cbn [obind].
  rewrite translate_pos_L by lia.
  replace (pos <=? Z.of_nat (length src))%Z with true by (symmetry; apply Z.leb_le; lia). cbn [obind].
  set (line := 1 + newlines _).
  destruct (fmt_lines_Pr buf line (S (length src)) src 1 [] o0 _ H0) as (o1 & -> & H1);
    [lia|congruence|]. cbn [obind].
  destruct (append_Pr buf _ _ [newline] H1) as (o2 & -> & H2 & _). cbn [obind].
  destruct (append_Pr buf _ _ (text_of "ERROR " ++ file ++ text_of "(" ++ dec line ++ text_of "): ") H2)
    as (o3 & -> & H3 & _). cbn [obind].
  destruct (append_Pr buf _ _ msg H3) as (o4 & -> & H4 & _). cbn [obind].
  destruct (append_Pr buf _ _ [newline] H4) as (o5 & -> & H5 & Hpr). cbn [obind].
  f_equal. destruct (Nat.eq_dec (length buf) 0) as [Z|NZ].
  - destruct H5 as [_ [H5|[_ H5]]].
    + rewrite H5. unfold printed. rewrite Z. reflexivity.
    + rewrite H5. unfold printed. rewrite Z. apply length_zero_iff_nil. exact Z.
  - rewrite Hpr by lia. f_equal. cbn [app]. rewrite <- !app_assoc. reflexivity.
Qed.

Lemma format_error_nosrc_L buf file pos msg :
  format_error buf file None pos msg = Ok (printed buf (error_text_nosrc msg)).
Proof.
  unfold format_error, error_text_nosrc.
  assert (P0 : Pr buf (mkOut buf 0) []) by (split; [reflexivity|right; auto]).
  destruct (append_Pr buf _ _ [newline] P0) as (o0 & -> & H0 & _). cbn [obind].
  destruct (append_Pr buf _ _ (text_of "ERROR: ") H0) as (o1 & -> & H1 & _). cbn [obind].
  destruct (append_Pr buf _ _ msg H1) as (o4 & -> & H4 & _). cbn [obind].
  destruct (append_Pr buf _ _ [newline] H4) as (o5 & -> & H5 & Hpr). cbn [obind].
  f_equal. destruct (Nat.eq_dec (length buf) 0) as [Z|NZ].
  - destruct H5 as [_ [H5|[_ H5]]].
    + rewrite H5. unfold printed. rewrite Z. reflexivity.
    + rewrite H5. unfold printed. rewrite Z. apply length_zero_iff_nil. exact Z.
  - rewrite Hpr by lia. f_equal.
Qed.

(** A position beyond the source trips the assert of util.c:23. *)
Lemma format_error_beyond_L buf file src pos msg :
  (Z.of_nat (length src) < pos)%Z -> format_error buf file (Some src) pos msg = Abort.
Proof.
  intros Hp. unfold format_error.
  assert (P0 : Pr buf (mkOut buf 0) []) by (split; [reflexivity|right; auto]).
  destruct (append_Pr buf _ _ [newline] P0) as (o0 & -> & H0 & _). cbn [obind].
  rewrite translate_pos_L by lia.
  replace (pos <=? Z.of_nat (length src))%Z with false by (symmetry; apply Z.leb_gt; lia). reflexivity.
Qed.

(** The spec's [lines] is a partition of the source into lines. *)
Lemma lines_concat src : concat (lines src) = src.
Proof.
  unfold lines. assert (G : forall acc, concat (lines_from acc src) = acc ++ src).
  { induction src as [|c src IH]; intros acc; cbn [lines_from].
    - destruct acc; cbn; rewrite ?app_nil_r; reflexivity.
    - destruct (Ascii.eqb c newline); cbn [concat]; rewrite IH, <- app_assoc; reflexivity. }
  apply (G []).
Qed.
