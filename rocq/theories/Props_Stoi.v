(** C57: [stoi] on every text and in every base.

    [Props_Std.v] reads back numbers written alone.  Here the whole language of
    [stoi] is specified — leading blanks, a sign, the [0x] and [0] prefixes, text
    after the number, numbers too large — and every text is read. *)
From Coq Require Import DecimalString.
From Verif Require Import Base Float64 Values ValuesSpec Lexer Heap Code VM VMSpec Std StdSpec StdProofs Props_Std.
Local Open Scope Z_scope.

(** ** What a text means as a number in base [b] *)
Definition blank (c : ascii) : Prop := In c [" "; "009"; "010"; "011"; "012"; "013"]%char.

(** The longest run of digits at the start of [s] denotes [n] (0 if it is empty). *)
Definition leading_digits (b : Z) (s : text) (n : Z) : Prop :=
  exists cs ds rest, s = cs ++ rest /\ Forall2 digit_char cs ds /\ Forall (fun d => d < b) ds /\
    (forall c r d, rest = c :: r -> digit_char c d -> b <= d) /\ n = in_base b ds.

(** [0x] or [0X] before a hexadecimal digit, followed by [r] *)
Definition hex_prefix (s r : text) : Prop :=
  exists x c d r', (x = "x" \/ x = "X")%char /\ digit_char c d /\ d < 16 /\ r = c :: r' /\ s = ("0" :: x :: r)%char.

(** Base 16 takes the prefix; base 0 chooses 16, 8 or 10 by it. *)
Inductive numeral (b : Z) (s : text) (n : Z) : Prop :=
| nu_hex r : b = 0 \/ b = 16 -> hex_prefix s r -> leading_digits 16 r n -> numeral b s n
| nu_plain : 2 <= b <= 36 -> (b = 16 -> forall r, ~ hex_prefix s r) -> leading_digits b s n -> numeral b s n
| nu_octal r : b = 0 -> s = "0"%char :: r -> (forall r', ~ hex_prefix s r') -> leading_digits 8 s n -> numeral b s n
| nu_decimal : b = 0 -> (forall r, s <> "0"%char :: r) -> leading_digits 10 s n -> numeral b s n.

(** Blanks, a sign, a numeral; numbers outside 64 bits become the nearest one. *)
Inductive means (b : Z) : text -> Z -> Prop :=
| me_minus sp s n : Forall blank sp -> numeral b s n -> means b (sp ++ text_of "-" ++ s) (Z.max (- n) (- 2^63))
| me_plus sp s n : Forall blank sp -> numeral b s n -> means b (sp ++ text_of "+" ++ s) (Z.min n (2^63 - 1))
| me_bare sp s n : Forall blank sp -> (forall c r, s = c :: r -> ~ blank c /\ c <> "-"%char /\ c <> "+"%char) -> numeral b s n ->
    means b (sp ++ s) (Z.min n (2^63 - 1)).

(** ** The model computes it *)
Definition all_ascii : list ascii := map ascii_of_nat (seq 0 256).
Lemma in_all c : In c all_ascii.
Proof.
  unfold all_ascii. rewrite <- (ascii_nat_embedding c). apply in_map. apply in_seq. pose proof (nat_ascii_bounded c). lia.
Qed.

Lemma blank_iff c : is_space c = true <-> blank c.
Proof.
  split.
  - intros E. assert (F : forallb (fun x => implb (is_space x) (existsb (Ascii.eqb x) [" "; "009"; "010"; "011"; "012"; "013"]%char)) all_ascii = true) by reflexivity.
    rewrite forallb_forall in F. specialize (F c (in_all c)). rewrite E in F. cbn [implb] in F. apply existsb_exists in F.
    destruct F as (x & I & Eq). apply Ascii.eqb_eq in Eq. subst x. exact I.
  - unfold blank. cbn [In]. intros [<-|[<-|[<-|[<-|[<-|[<-|[]]]]]]]; reflexivity.
Qed.

Definition spelt (c : ascii) : bool :=
  if digit_of c <? 36 then (0 <=? digit_of c) &&
    (match nth_error (text_of "0123456789abcdefghijklmnopqrstuvwxyz") (Z.to_nat (digit_of c)) with Some x => Ascii.eqb x c | None => false end ||
     match nth_error (text_of "0123456789ABCDEFGHIJKLMNOPQRSTUVWXYZ") (Z.to_nat (digit_of c)) with Some x => Ascii.eqb x c | None => false end)
  else true.
Lemma digit_of_char c : digit_of c < 36 -> digit_char c (digit_of c).
Proof.
  intros L. assert (F : forallb spelt all_ascii = true) by reflexivity. rewrite forallb_forall in F. specialize (F c (in_all c)).
  unfold spelt in F. destruct (Z.ltb_spec (digit_of c) 36); [|lia]. apply andb_prop in F. destruct F as [P F]. apply Z.leb_le in P.
  exists (Z.to_nat (digit_of c)). split; [lia|]. apply orb_prop in F. destruct F as [F|F]; [left|right];
    (destruct (nth_error _ _) as [x|]; [|discriminate]); apply Ascii.eqb_eq in F; subst; reflexivity.
Qed.
Lemma char_digit_of c d : digit_char c d -> digit_of c = d.
Proof.
  intros D. destruct (digit_char_fine _ _ D) as (n & -> & Q). unfold digit_fine in Q. rewrite !Bool.andb_true_iff in Q.
  destruct Q as (((((Q & _) & _) & _) & _) & _). apply Z.eqb_eq in Q. exact Q.
Qed.

Lemma digits_stop b rest acc : b <= 36 -> (forall c r d, rest = c :: r -> digit_char c d -> b <= d) -> digits b acc rest = acc.
Proof.
  intros B St. destruct rest as [|c r]; [reflexivity|]. cbn [digits]. destruct (Z.ltb_spec (digit_of c) b); [|reflexivity].
  specialize (St c r (digit_of c) eq_refl (digit_of_char c ltac:(lia))). lia.
Qed.
Lemma leading_digits_is b s n : b <= 36 -> leading_digits b s n -> digits b 0 s = n.
Proof.
  intros B (cs & ds & rest & -> & F & L & St & ->). unfold in_base. generalize 0 as acc. induction F as [|c d cs ds D F IH]; intros acc.
  - apply digits_stop; auto.
  - inversion L; subst. cbn [app digits fold_left]. rewrite (char_digit_of _ _ D). destruct (Z.ltb_spec d b); [|lia]. apply IH; auto.
Qed.
Lemma leading_digits_ex b : b <= 36 -> forall s, exists n, leading_digits b s n.
Proof.
  intros B s. enough (G : exists cs ds rest, s = cs ++ rest /\ Forall2 digit_char cs ds /\ Forall (fun d => d < b) ds /\
    (forall c r d, rest = c :: r -> digit_char c d -> b <= d)).
  { destruct G as (cs & ds & rest & G1 & G2 & G3 & G4). exists (in_base b ds), cs, ds, rest. auto. }
  induction s as [|c s (cs & ds & rest & E & F & L & St)].
  - exists [], [], []. repeat split; auto. intros c r d X. discriminate X.
  - destruct (Z_lt_ge_dec (digit_of c) b) as [Lt|Ge].
    + exists (c :: cs), (digit_of c :: ds), rest. repeat split; auto.
      * rewrite E. reflexivity.
      * constructor; [apply digit_of_char; lia|exact F].
    + exists [], [], (c :: s). repeat split; auto. intros c' r d [= <- <-] D. rewrite <- (char_digit_of _ _ D). lia.
Qed.

Lemma drop_0x_some s r : drop_0x s = Some r <-> hex_prefix s r.
Proof.
  split.
  - destruct s as [|a [|x [|d r0]]]; try discriminate. cbn [drop_0x].
    destruct (Ascii.eqb_spec a "0") as [->|]; [|discriminate]. cbn [andb].
    destruct (Ascii.eqb x "x" || Ascii.eqb x "X")%bool eqn:X; [|discriminate]. cbn [andb].
    destruct (Z.ltb_spec (digit_of d) 16); [|discriminate]. intros [= <-].
    exists x, d, (digit_of d), r0. repeat split; auto; [|apply digit_of_char; lia].
    apply orb_prop in X. destruct X as [X|X]; apply Ascii.eqb_eq in X; auto.
  - intros (x & c & d & r' & X & D & L & -> & ->). cbn [drop_0x]. rewrite (char_digit_of _ _ D).
    destruct (Z.ltb_spec d 16); [|lia]. destruct X as [-> | ->]; reflexivity.
Qed.
Lemma drop_0x_none s : drop_0x s = None <-> forall r, ~ hex_prefix s r.
Proof.
  split.
  - intros E r P. apply drop_0x_some in P. congruence.
  - intros N. destruct (drop_0x s) as [r|] eqn:E; [|reflexivity]. apply drop_0x_some in E. destruct (N _ E).
Qed.

Lemma numeral_is b s n : numeral b s n -> strtol_mag b s = n.
Proof.
  intros [r [Hb | Hb] P L|B N L|r Hb Hs N L|Hb N L]; try (subst b); try (subst s); unfold strtol_mag.
  - apply drop_0x_some in P. rewrite P. cbn [Z.eqb orb]. exact (leading_digits_is 16 _ _ ltac:(lia) L).
  - apply drop_0x_some in P. rewrite P. change ((16 =? 0) || (16 =? 16))%bool with true. cbn iota. exact (leading_digits_is 16 _ _ ltac:(lia) L).
  - destruct (Z.eqb_spec b 0); [lia|]. cbn [orb]. destruct (Z.eqb_spec b 16) as [->|].
    + rewrite (proj2 (drop_0x_none s) (N eq_refl)). exact (leading_digits_is 16 _ _ ltac:(lia) L).
    + exact (leading_digits_is b _ _ ltac:(lia) L).
  - change ((0 =? 0) || (0 =? 16))%bool with true. cbn iota. rewrite (proj2 (drop_0x_none _) N). change (0 =? 16) with false. cbn iota.
    change (Ascii.eqb "0" "0") with true. cbn iota. exact (leading_digits_is 8 _ _ ltac:(lia) L).
  - change ((0 =? 0) || (0 =? 16))%bool with true. cbn iota. change (0 =? 16) with false. cbn iota.
    rewrite (proj2 (drop_0x_none s)).
    + destruct s as [|c r]; [exact (leading_digits_is 10 _ _ ltac:(lia) L)|]. destruct (Ascii.eqb_spec c "0") as [->|]; [destruct (N r eq_refl)|].
      exact (leading_digits_is 10 _ _ ltac:(lia) L).
    + intros r (x & c & d & r' & _ & _ & _ & _ & ->). destruct (N (x :: r) eq_refl).
Qed.
Lemma numeral_ex b s : b = 0 \/ 2 <= b <= 36 -> exists n, numeral b s n.
Proof.
  intros B. destruct (drop_0x s) as [r|] eqn:E.
  - destruct (Z.eq_dec b 0) as [->|N0]; [|destruct (Z.eq_dec b 16) as [->|N16]].
    + destruct (leading_digits_ex 16 ltac:(lia) r) as (n & L). exists n. apply nu_hex with r; auto. apply drop_0x_some; auto.
    + destruct (leading_digits_ex 16 ltac:(lia) r) as (n & L). exists n. apply nu_hex with r; auto. apply drop_0x_some; auto.
    + destruct (leading_digits_ex b ltac:(lia) s) as (n & L). exists n. apply nu_plain; auto; lia.
  - pose proof (proj1 (drop_0x_none s) E) as N. destruct B as [-> | B].
    + destruct s as [|c r].
      * destruct (leading_digits_ex 10 ltac:(lia) []) as (n & L). exists n. apply nu_decimal; auto. intros r X. discriminate X.
      * destruct (Ascii.eqb_spec c "0") as [->|Ne].
        -- destruct (leading_digits_ex 8 ltac:(lia) ("0"%char :: r)) as (n & L). exists n. apply nu_octal with r; auto.
        -- destruct (leading_digits_ex 10 ltac:(lia) (c :: r)) as (n & L). exists n. apply nu_decimal; auto. intros r' [= X _]. auto.
    + destruct (leading_digits_ex b ltac:(lia) s) as (n & L). exists n. apply nu_plain; auto.
Qed.

Lemma skip_blanks sp s : Forall blank sp -> skip_space (sp ++ s) = skip_space s.
Proof. induction 1 as [|c sp B F IH]; [reflexivity|]. cbn [app skip_space]. rewrite (proj2 (blank_iff c) B). exact IH. Qed.
Lemma skip_stops s : (forall c r, s = c :: r -> ~ blank c) -> skip_space s = s.
Proof.
  destruct s as [|c r]; [reflexivity|]. intros N. cbn [skip_space]. destruct (is_space c) eqn:E; [|reflexivity].
  apply blank_iff in E. destruct (N c r eq_refl E).
Qed.

Lemma means_is b s n : b = 0 \/ 2 <= b <= 36 -> nul_free s -> means b s n -> strtol s b = n.
Proof.
  intros B Nf R. unfold strtol. replace ((b <? 0) || (b =? 1) || (36 <? b))%bool with false
    by (symmetry; rewrite !Bool.orb_false_iff, !Z.ltb_ge, Z.eqb_neq; lia).
  rewrite until_nul_free by exact Nf. destruct R as [sp s n Sp Nu|sp s n Sp Nu|sp s n Sp Fi Nu].
  - rewrite (skip_blanks sp _ Sp). change (text_of "-" ++ s) with ("-"%char :: s). cbn [skip_space]. change (is_space "-") with false.
    change (Ascii.eqb "-" "-") with true. cbn iota. rewrite (numeral_is _ _ _ Nu). reflexivity.
  - rewrite (skip_blanks sp _ Sp). change (text_of "+" ++ s) with ("+"%char :: s). cbn [skip_space]. change (is_space "+") with false.
    change (Ascii.eqb "+" "-") with false. change (Ascii.eqb "+" "+") with true. cbn iota. rewrite (numeral_is _ _ _ Nu). reflexivity.
  - rewrite (skip_blanks sp _ Sp), skip_stops by (intros c r E; apply (Fi c r E)). destruct s as [|c r].
    + apply numeral_is in Nu. unfold strtol_mag in Nu. cbn [drop_0x digits] in Nu. subst n.
      destruct (Z.eqb_spec b 0); [subst; reflexivity|]. destruct (Z.eqb_spec b 16); subst; reflexivity.
    + destruct (Fi c r eq_refl) as (_ & Nm & Np). destruct (Ascii.eqb_spec c "-"); [contradiction|]. destruct (Ascii.eqb_spec c "+"); [contradiction|].
      rewrite (numeral_is _ _ _ Nu). reflexivity.
Qed.

(** ** The theorems *)

(** Every text means a number, in base 0 and in the bases 2 to 36, … *)
Theorem every_text_means : forall b s, b = 0 \/ 2 <= b <= 36 -> exists n, means b s n.
Proof.
  intros b s B. assert (Sp : exists sp r, s = sp ++ r /\ Forall blank sp /\ forall c q, r = c :: q -> ~ blank c).
  { induction s as [|c s (sp & r & E & F & N)].
    - exists [], []. repeat split; auto. intros c q X. discriminate X.
    - destruct (is_space c) eqn:I.
      + exists (c :: sp), r. rewrite E. repeat split; auto. constructor; auto. apply blank_iff; auto.
      + exists [], (c :: s). repeat split; auto. intros c' q [= <- <-] Bl. apply blank_iff in Bl. congruence. }
  destruct Sp as (sp & r & -> & F & N). destruct r as [|c q].
  - destruct (numeral_ex b [] B) as (n & Nu). eexists. apply me_bare with (n := n); auto. intros c q X. discriminate X.
  - destruct (Ascii.eqb_spec c "-") as [->|Nm].
    + destruct (numeral_ex b q B) as (n & Nu). eexists. apply (me_minus b sp q n); auto.
    + destruct (Ascii.eqb_spec c "+") as [->|Np].
      * destruct (numeral_ex b q B) as (n & Nu). eexists. apply (me_plus b sp q n); auto.
      * destruct (numeral_ex b (c :: q) B) as (n & Nu). eexists. apply (me_bare b sp (c :: q) n); auto.
        intros c' q' [= <- <-]. repeat split; auto. exact (N c q eq_refl).
Qed.
Print Assumptions every_text_means.

(** … and only one. *)
Theorem means_one_number : forall b s n n', b = 0 \/ 2 <= b <= 36 -> nul_free s -> means b s n -> means b s n' -> n = n'.
Proof. intros b s n n' B F R R'. rewrite <- (means_is _ _ _ B F R). exact (means_is _ _ _ B F R'). Qed.
Print Assumptions means_one_number.

(** [stoi] of a string, whose text up to its first NUL is [s], in base [b]: the
    low 32 bits, signed, of what the text means. *)
Theorem stoi_reads : forall {H} (M : machine H) (t : thread H) v s tail b n,
  text_of_value (t_heap t) v (s ++ tail) -> nul_free s -> tail = [] \/ (exists r, tail = "000"%char :: r) ->
  b = 0 \/ 2 <= b <= 36 -> means b s n -> returns M std_stoi [v; VInt b] t (VInt (wrap32 n)) t.
Proof.
  intros H M t v s tail b n T F Ta B R callf. unfold std_stoi. cbn [arg nth_error length Nat.ltb Nat.leb to_int].
  rewrite (with_chars_run M callf v _ _ t T). cbn [run_fprog]. unfold new_int.
  rewrite (wrap32_in b) by (unfold in_int32; rewrite Bool.andb_true_iff, Z.leb_le, Z.ltb_lt; lia).
  replace (strtol (s ++ tail) b) with (strtol s b); [rewrite (means_is _ _ _ B F R); reflexivity|].
  unfold strtol. replace (until_nul (s ++ tail)) with (until_nul s); [reflexivity|].
  clear -F Ta. induction s as [|c s IH].
  - destruct Ta as [-> | (r & ->)]; reflexivity.
  - cbn [app until_nul]. destruct (Ascii.eqb c "000"); [reflexivity|]. f_equal. apply IH. intros I. apply F. right; exact I.
Qed.
Print Assumptions stoi_reads.

(** Without a base it is base 10. *)
Theorem stoi_default_base : forall {H} (M : machine H) (t : thread H) v s tail n,
  text_of_value (t_heap t) v (s ++ tail) -> nul_free s -> tail = [] \/ (exists r, tail = "000"%char :: r) ->
  means 10 s n -> returns M std_stoi [v] t (VInt (wrap32 n)) t.
Proof.
  intros H M t v s tail n T F Ta R callf. pose proof (stoi_reads M t v s tail 10 n T F Ta ltac:(lia) R callf) as E.
  unfold std_stoi in *. cbn [arg nth_error length Nat.ltb Nat.leb to_int] in *. exact E.
Qed.
Print Assumptions stoi_default_base.

(** In a base that does not exist every text is 0. *)
Theorem stoi_no_such_base : forall {H} (M : machine H) (t : thread H) v s b,
  text_of_value (t_heap t) v s -> in_int32 b = true -> b < 0 \/ b = 1 \/ 36 < b -> returns M std_stoi [v; VInt b] t (VInt 0) t.
Proof.
  intros H M t v s b T I B callf. unfold std_stoi. cbn [arg nth_error length Nat.ltb Nat.leb to_int].
  rewrite (with_chars_run M callf v _ _ t T). cbn [run_fprog]. unfold new_int. rewrite (wrap32_in b I). unfold strtol.
  replace ((b <? 0) || (b =? 1) || (36 <? b))%bool with true; [reflexivity|]. symmetry. rewrite !Bool.orb_true_iff, !Z.ltb_lt, Z.eqb_eq. lia.
Qed.
Print Assumptions stoi_no_such_base.

(** The clamp to 64 bits does not survive the cut to 32: a number too large reads
    as -1, one too small as 0. *)
Theorem stoi_saturates_refuted : ~ (forall (t : thread unit) v s n, text_of_value (t_heap t) v s -> nul_free s -> means 10 s n ->
  2^31 <= n -> returns idle std_stoi [v] t (VInt (2^31 - 1)) t).
Proof.
  intros A. assert (R : means 10 (text_of "9223372036854775807") (Z.min 9223372036854775807 (2^63 - 1))).
  { apply (me_bare 10 [] (text_of "9223372036854775807")); [constructor| |].
    - intros c r [= <- _]. repeat split; try discriminate. unfold blank. cbn. intros X. repeat destruct X as [X|X]; try discriminate; auto.
    - destruct (numeral_ex 10 (text_of "9223372036854775807") ltac:(lia)) as (n & N). pose proof (numeral_is _ _ _ N) as E. cbv in E. subst n. exact N. }
  specialize (A (init_thread tt) (VCStr (text_of "9223372036854775807")) (text_of "9223372036854775807") _ (tv_const _ _)
    ltac:(intros X; cbn in X; repeat destruct X as [X|X]; try discriminate; auto) R ltac:(cbn; lia) (fun _ _ _ => UB)). discriminate A.
Qed.
Print Assumptions stoi_saturates_refuted.

(** ** The hypotheses are met *)
Example stoi_cases :
  means 0 (text_of "  -0x1Fzz") (-31) /\ means 0 (text_of "0179") 15 /\ means 16 (text_of "+0xg") 0 /\ means 10 (text_of "12 apples") 12 /\
  means 36 (text_of "Zz") 1295 /\ means 10 (text_of "- 5") 0.
Proof.
  assert (Go : forall b s k, b = 0 \/ 2 <= b <= 36 -> nul_free s -> strtol s b = k -> means b s k).
  { intros b s k B F <-. destruct (every_text_means b s B) as (n & R). rewrite (means_is _ _ _ B F R). exact R. }
  repeat split; (apply Go; [lia|intros X; cbn in X; repeat destruct X as [X|X]; try discriminate; auto|reflexivity]).
Qed.
Example stoi_hex : means 0 (text_of "  -0x1Fzz") (-31).
Proof.
  apply (me_minus 0 (text_of "  ") (text_of "0x1Fzz") 31); [repeat constructor|].
  apply nu_hex with (text_of "1Fzz"); [auto| |].
  - exists "x"%char, "1"%char, 1, (text_of "Fzz"). split; [auto|]. split; [exists 1%nat; split; [reflexivity|left; reflexivity]|]. split; [lia|]. split; reflexivity.
  - exists (text_of "1F"), [1; 15], (text_of "zz"). split; [reflexivity|]. split; [|split; [|split; [|reflexivity]]].
    + constructor; [exists 1%nat; split; [reflexivity|left; reflexivity]|]. constructor; [exists 15%nat; split; [reflexivity|right; reflexivity]|constructor].
    + repeat constructor.
    + intros c r d [= <- _] (k & -> & [E|E]); revert E; cbn [text_of]; (do 36 (destruct k as [|k]; [intros [=]; lia|])); destruct k; discriminate.
Qed.
