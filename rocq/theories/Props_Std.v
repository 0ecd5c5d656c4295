(** C36, C38: the library's string functions, number conversion and printf *)
From Coq Require Import DecimalString.
From Verif Require Import Base Float64 Values ValuesSpec Lexer Heap Code VM VMSpec Std StdSpec StdProofs StdPrintf.
Local Open Scope Z_scope.

(** How a program sees a library function: the call instruction puts what it
    returns in the return value and takes the arguments off the stack. *)
Theorem call_returns : forall {H} (M : machine H) callf fn f n (t t' : thread H) v,
  nth_error (m_foreign M) (Z.to_nat f) = Some fn -> (Z.to_nat n <= length (t_stk t))%nat ->
  returns M fn (rev (firstn (Z.to_nat n) (t_stk t))) t v t' -> t_stk t' = t_stk t ->
  exec M callf (ICallF n f) t = Ok (with_ret (with_stk t' (skipn (Z.to_nat n) (t_stk t))) v).
Proof.
  intros H M callf fn f n t t' v N L R S. cbn [exec]. destruct (Nat.leb_spec (Z.to_nat n) (length (t_stk t))); [|lia].
  rewrite N. unfold top_args. rewrite (R callf). cbn [obind]. rewrite S. unfold cut.
  destruct (Nat.leb_spec (length (t_stk t) - Z.to_nat n) (length (t_stk t))); [|lia]. cbn [obind].
  replace (length (t_stk t) - (length (t_stk t) - Z.to_nat n))%nat with (Z.to_nat n) by lia. reflexivity.
Qed.
Print Assumptions call_returns.

Lemma new_string_alloc {H} (t : thread H) s : new_string t s (VStr (t_next t)) (snd (alloc t (BStr s))).
Proof.
  unfold new_string, alloc. cbn [snd t_heap t_stk t_globs t_host t_pc t_fp t_frames]. split; [reflexivity|]. split.
  - apply tv_heap with (m := false). cbn. rewrite Nat.eqb_refl. reflexivity.
  - split; [|auto 10]. intros id Ne. cbn. destruct (Nat.eqb_spec (t_next t) id); [congruence|reflexivity].
Qed.

(** ** C36 *)
Theorem strcat_concatenates : forall {H} (M : machine H) (t : thread H) args texts,
  Forall2 (is_string (t_heap t)) args texts ->
  exists v t', returns M std_strcat args t v t' /\ new_string t (concat texts) v t'.
Proof.
  intros H M t args ss F. eexists _, _. split; [|apply new_string_alloc]. intros callf. exact (strcat_run M callf args ss t F).
Qed.
Print Assumptions strcat_concatenates.

(** [substr(s, a, b)] is the characters from [a] up to but not including [b];
    [-1] stands for the length. *)
Theorem substr_is_slice : forall {H} (M : machine H) (t : thread H) v s a b b0,
  is_string (t_heap t) v s -> Z.of_nat (length s) < 2^31 -> 0 <= a < b -> b <= Z.of_nat (length s) ->
  (b0 = b \/ b0 = -1 /\ b = Z.of_nat (length s)) ->
  exists pre mid post, s = pre ++ mid ++ post /\ Z.of_nat (length pre) = a /\ Z.of_nat (length mid) = b - a /\
  exists r t', returns M std_substr [v; VInt a; VInt b0] t r t' /\ new_string t mid r t'.
Proof.
  intros H M t v s a b b0 R L A B E.
  exists (firstn (Z.to_nat a) s), (firstn (Z.to_nat (b - a)) (skipn (Z.to_nat a) s)), (skipn (Z.to_nat (b - a)) (skipn (Z.to_nat a) s)).
  split; [rewrite firstn_skipn, firstn_skipn; reflexivity|]. split; [rewrite firstn_length; lia|].
  split; [rewrite firstn_length, skipn_length; lia|]. eexists _, _. split; [|apply new_string_alloc].
  intros callf. exact (substr_run M callf v s a b t R L A B b0 E).
Qed.
Print Assumptions substr_is_slice.

Theorem substr_out_of_range_aborts : forall {H} (M : machine H) (t : thread H) v s a b,
  is_string (t_heap t) v s -> in_int32 a = true -> in_int32 b = true -> b <> -1 ->
  a < 0 \/ b < a \/ a < b /\ Z.of_nat (length s) < b ->
  aborts M std_substr [v; VInt a; VInt b] t.
Proof. intros H M t v s a b R Ia Ib Nb Bad callf. exact (substr_abort M callf v s a b t R Ia Ib Nb Bad). Qed.
Print Assumptions substr_out_of_range_aborts.

(** An empty range is the empty string — even one that lies outside. *)
Theorem substr_empty_range : forall {H} (M : machine H) (t : thread H) v s a,
  is_string (t_heap t) v s -> 0 <= a < 2^31 -> returns M std_substr [v; VInt a; VInt a] t (VCStr []) t.
Proof. intros H M t v s a R A callf. exact (substr_empty M callf v s a t R A). Qed.
Print Assumptions substr_empty_range.

(** The bounds may be any values: a float loses its fraction, what is no number
    counts as 0. *)
Inductive as_bound : value -> Z -> Prop :=
| ab_int i : as_bound (VInt i) i
| ab_float b i : f_trunc b = Some i -> as_bound (VFloat b) i
| ab_other v : (forall i, v <> VInt i) -> (forall b, v <> VFloat b) -> as_bound v 0.
Theorem substr_converts_bounds : forall {H} (M : machine H) (t : thread H) v x y a b,
  as_bound x a -> as_bound y b -> in_int32 a = true -> in_int32 b = true ->
  (forall r t', returns M std_substr [v; VInt a; VInt b] t r t' -> returns M std_substr [v; x; y] t r t') /\
  (aborts M std_substr [v; VInt a; VInt b] t -> aborts M std_substr [v; x; y] t).
Proof.
  intros H M t v x y a b X Y A B.
  assert (N : forall w i, as_bound w i -> in_int32 i = true -> number_to_int w = number_to_int (VInt i)).
  { intros w i W I. destruct W as [i|bits i E|w N1 N2]; cbn [number_to_int]; rewrite ?E; auto.
    destruct w as [| | z | z | | | | |]; try reflexivity; [destruct (N1 z eq_refl)|destruct (N2 z eq_refl)]. }
  assert (R : forall callf, run_fprog M callf (std_substr [v; x; y]) t = run_fprog M callf (std_substr [v; VInt a; VInt b]) t).
  { intros callf. unfold std_substr. cbn [length Nat.eqb negb arg nth_error]. rewrite (N x a X A), (N y b Y B). reflexivity. }
  split; [intros r t' G callf|intros G callf]; rewrite R; apply G.
Qed.
Print Assumptions substr_converts_bounds.
Example bound_case : as_bound (VFloat 4612811918334230528) 2 (* 2.5 *) /\ as_bound VNull 0.
Proof. split; [apply ab_float; vm_compute; reflexivity|apply ab_other; discriminate]. Qed.
Theorem substr_takes_three : forall {H} (M : machine H) (t : thread H) args, length args <> 3%nat -> aborts M std_substr args t.
Proof. intros H M t args L callf. unfold std_substr. destruct (Nat.eqb_spec (length args) 3); [contradiction|]. reflexivity. Qed.
Print Assumptions substr_takes_three.

Theorem strlen_counts : forall {H} (M : machine H) (t : thread H) v s,
  text_of_value (t_heap t) v s -> nul_free s -> Z.of_nat (length s) < 2^31 ->
  returns M std_strlen [v] t (VInt (Z.of_nat (length s))) t.
Proof. intros H M t v s T F L callf. exact (strlen_run M callf v s t T F L). Qed.
Print Assumptions strlen_counts.

(** [stridx(s, i)] is the code of character [i] (as a signed char). *)
Theorem stridx_indexes : forall {H} (M : machine H) (t : thread H) v s i c,
  text_of_value (t_heap t) v s -> nul_free s -> 0 <= i < 2^31 -> nth_error s (Z.to_nat i) = Some c ->
  returns M std_stridx [v; VInt i] t
    (VInt (let n := Z.of_nat (nat_of_ascii c) in if n <? 128 then n else n - 256)) t.
Proof.
  intros H M t v s i c T F I N callf.
  assert (W : wrap32 i = i). { unfold wrap32. rewrite Z.mod_small; lia. }
  pose proof (stridx_run M callf v s i c t T F) as R. rewrite W in R. rewrite (R ltac:(lia) N). reflexivity.
Qed.
Print Assumptions stridx_indexes.

Theorem stridx_out_of_range_aborts : forall {H} (M : machine H) (t : thread H) v s i,
  text_of_value (t_heap t) v s -> nul_free s -> in_int32 i = true -> ~ 0 <= i < Z.of_nat (length s) ->
  aborts M std_stridx [v; VInt i] t.
Proof. intros H M t v s i T F I N callf. exact (stridx_abort M callf v s i t T F I N). Qed.
Print Assumptions stridx_out_of_range_aborts.

(** [strchr] finds the first occurrence, or -1. *)
Theorem strchr_finds_first : forall {H} (M : machine H) (t : thread H) v s c,
  is_string (t_heap t) v s -> Z.of_nat (length s) < 2^31 ->
  exists r, returns M std_strchr [v; VInt (Z.of_nat (nat_of_ascii c))] t (VInt r) t /\
  (r = -1 /\ ~ In c s \/
   exists pre post, s = pre ++ c :: post /\ ~ In c pre /\ r = Z.of_nat (length pre)).
Proof.
  intros H M t v s c R L.
  destruct (strchr_run M (fun _ _ _ => UB) v s c t R L) as (r & E & Sp).
  exists r. split.
  - intros callf. destruct (strchr_run M callf v s c t R L) as (r' & E' & Sp'). rewrite E'.
    destruct Sp as [(-> & N)|(P & N & F)], Sp' as [(-> & N')|(P' & N' & F')].
    + reflexivity.
    + destruct N. eapply nth_error_In; eauto.
    + destruct N'. eapply nth_error_In; eauto.
    + assert (Z.to_nat r = Z.to_nat r') as Eq.
      { destruct (Nat.lt_trichotomy (Z.to_nat r) (Z.to_nat r')) as [C|[C|C]]; auto; [destruct (F' _ C N)|destruct (F _ C N')]. }
      do 3 f_equal. lia.
  - destruct Sp as [(-> & N)|(P & N & F)]; [left; auto|right].
    apply nth_error_split in N. destruct N as (pre & post & -> & Lp). exists pre, post. split; auto. split; [|lia].
    intros I. apply In_nth_error in I. destruct I as (k & K). assert (k < length pre)%nat by (apply nth_error_Some; congruence).
    apply (F k); [lia|]. rewrite nth_error_app1 by auto. exact K.
Qed.
Print Assumptions strchr_finds_first.

(** [strlen] and [stridx] see a string up to its first NUL. *)
Theorem strlen_stops_at_nul : forall {H} (M : machine H) (t : thread H) v s rest,
  text_of_value (t_heap t) v (s ++ "000"%char :: rest) -> nul_free s -> Z.of_nat (length s) < 2^31 ->
  returns M std_strlen [v] t (VInt (Z.of_nat (length s))) t.
Proof.
  intros H M t v s rest T F L callf. unfold std_strlen. cbn [arg nth_error]. rewrite (with_chars_run M callf v _ _ t T).
  rewrite (strlen_cut _ s ("000"%char :: rest)) by eauto. cbn [attempt run_fprog]. unfold new_int. rewrite wrap32_in; [reflexivity|].
  unfold in_int32. rewrite Bool.andb_true_iff, Z.leb_le, Z.ltb_lt. lia.
Qed.
Print Assumptions strlen_stops_at_nul.
Theorem stridx_stops_at_nul : forall {H} (M : machine H) (t : thread H) v s rest i,
  text_of_value (t_heap t) v (s ++ "000"%char :: rest) -> nul_free s -> in_int32 i = true ->
  match (if 0 <=? i then nth_error s (Z.to_nat i) else None) with
  | Some c => returns M std_stridx [v; VInt i] t (VInt (let n := Z.of_nat (nat_of_ascii c) in if n <? 128 then n else n - 256)) t
  | None => aborts M std_stridx [v; VInt i] t
  end.
Proof.
  intros H M t v s rest i T F I.
  assert (R : forall callf, run_fprog M callf (std_stridx [v; VInt i]) t =
    run_fprog M callf (if (0 <=? i) && (i <? Z.of_nat (length s)) then attempt (byte (s ++ "000"%char :: rest) (Z.to_nat i)) (fun c => FRet (new_int (char_val c))) else FAbort) t).
  { intros callf. unfold std_stridx. cbn [arg nth_error]. rewrite (with_chars_run M callf v _ _ t T).
    rewrite (strlen_cut _ s ("000"%char :: rest)) by eauto. cbn [attempt to_int]. rewrite (wrap32_in i I). reflexivity. }
  destruct (Z.leb_spec 0 i) as [P|P].
  - destruct (nth_error s (Z.to_nat i)) as [c|] eqn:N.
    + intros callf. rewrite R. assert (L : (Z.to_nat i < length s)%nat) by (apply nth_error_Some; congruence).
      destruct (Z.ltb_spec i (Z.of_nat (length s))); [|lia]. cbn [andb]. unfold byte. rewrite nth_error_app1, N by exact L. cbn [attempt run_fprog].
      pose proof (stridx_indexes M t (VCStr s) s i c (tv_const _ _) F) as E.
      unfold in_int32 in I. rewrite Bool.andb_true_iff, Z.leb_le, Z.ltb_lt in I. specialize (E ltac:(lia) N callf).
      unfold std_stridx in E. cbn [arg nth_error with_chars to_int] in E. rewrite c_strlen_spec in E by exact F. cbn [attempt] in E.
      rewrite wrap32_in in E by (unfold in_int32; rewrite Bool.andb_true_iff, Z.leb_le, Z.ltb_lt; lia).
      destruct (Z.leb_spec 0 i); [|lia]. destruct (Z.ltb_spec i (Z.of_nat (length s))); [|lia]. cbn [andb] in E.
      unfold byte in E. rewrite N in E. exact E.
    + intros callf. rewrite R. apply nth_error_None in N. destruct (Z.ltb_spec i (Z.of_nat (length s))); [lia|]. reflexivity.
  - intros callf. rewrite R. reflexivity.
Qed.
Print Assumptions stridx_stops_at_nul.

(** [strchr] looks for the character of the code's low byte; what is no integer
    has code 0. *)
Theorem strchr_low_byte : forall {H} (M : machine H) (t : thread H) v x c r t',
  (exists i, x = VInt i /\ Z.of_nat (nat_of_ascii c) = i mod 256) \/ (forall i, x <> VInt i) /\ c = "000"%char ->
  returns M std_strchr [v; VInt (Z.of_nat (nat_of_ascii c))] t r t' -> returns M std_strchr [v; x] t r t'.
Proof.
  intros H M t v x c r t' X R callf. rewrite <- (R callf). unfold std_strchr.
  assert (E : to_int x mod 256 = to_int (VInt (Z.of_nat (nat_of_ascii c))) mod 256).
  { pose proof (nat_ascii_bounded c) as B. destruct X as [(i & -> & Ec)|(N & ->)]; cbn [to_int].
    - rewrite Ec, Zmod_mod. reflexivity.
    - destruct x; try reflexivity. destruct (N i eq_refl). }
  cbn [arg nth_error]. rewrite E. reflexivity.
Qed.
Print Assumptions strchr_low_byte.
Example cut_case : text_of_value [mkObj 0 false (BStr (text_of "ab" ++ ["000"%char; "c"%char]))] (VStr 0) (text_of "ab" ++ "000"%char :: text_of "c") /\ nul_free (text_of "ab").
Proof. split; [apply tv_heap with (m := false); reflexivity|]. intros [X|[X|[]]]; discriminate X. Qed.

(** Beyond what fits in an [int] the index is truncated, not rejected. *)
Theorem stridx_wraps_refuted : ~ (forall (M : machine unit) t v s i,
  text_of_value (t_heap t) v s -> nul_free s -> ~ 0 <= i < Z.of_nat (length s) ->
  aborts M std_stridx [v; VInt i] t).
Proof.
  intros A.
  specialize (A (mkMachine unit [] [] [] [] 0 (mkNatives unit (fun _ _ _ => []) (fun _ w _ => w)) None 0) (init_thread tt)
    (VCStr (text_of "abc")) (text_of "abc") (2^32 + 1) (tv_const _ _)).
  specialize (A ltac:(intros [E|[E|[E|[]]]]; discriminate E)). specialize (A ltac:(cbn; lia) (fun _ _ _ => UB)). discriminate A.
Qed.
Print Assumptions stridx_wraps_refuted.

(** ** C38: numbers *)
Theorem int_to_str_is_decimal : forall {H} (M : machine H) (t : thread H) z,
  - 2^63 <= z < 2^63 ->
  exists v t', returns M std_int_to_str [VInt z] t v t' /\ new_string t (decimal z) v t'.
Proof.
  intros H M t z R. eexists _, _. split; [|apply new_string_alloc]. intros callf.
  unfold std_int_to_str. cbn [arg nth_error to_int run_fprog]. unfold decimal.
  rewrite (dec_text_firstn z R). reflexivity.
Qed.
Print Assumptions int_to_str_is_decimal.

(** A 32-bit number survives being printed and read back, however the string is
    stored. *)
Theorem stoi_reads_decimal : forall {H} (M : machine H) (t : thread H) v z,
  text_of_value (t_heap t) v (decimal z) -> in_int32 z = true -> returns M std_stoi [v] t (VInt z) t.
Proof.
  intros H M t v z T I callf. unfold std_stoi. cbn [arg nth_error length Nat.ltb Nat.leb].
  rewrite (with_chars_run M callf v _ _ t T). cbn [run_fprog]. unfold new_int. change (decimal z) with (dec_text z).
  rewrite strtol_dec, wrap32_in; auto. revert I. unfold in_int32. rewrite Bool.andb_true_iff, Z.leb_le, Z.ltb_lt. lia.
Qed.
Print Assumptions stoi_reads_decimal.

Theorem stoi_int_to_str : forall {H} (M : machine H) (t : thread H) z, in_int32 z = true ->
  exists v t', returns M std_int_to_str [VInt z] t v t' /\ returns M std_stoi [v] t' (VInt z) t'.
Proof.
  intros H M t z I. destruct (int_to_str_is_decimal M t z) as (v & t' & R & _ & T & _).
  - revert I. unfold in_int32. rewrite Bool.andb_true_iff, Z.leb_le, Z.ltb_lt. lia.
  - exists v, t'. split; [exact R|]. apply stoi_reads_decimal; auto.
Qed.
Print Assumptions stoi_int_to_str.

(** With a base, [stoi] reads the digits in it: the letters stand for 10 to 35, in
    either case. *)
Definition digit_char (c : ascii) (d : Z) : Prop :=
  exists n, d = Z.of_nat n /\ (nth_error (text_of "0123456789abcdefghijklmnopqrstuvwxyz") n = Some c \/
                              nth_error (text_of "0123456789ABCDEFGHIJKLMNOPQRSTUVWXYZ") n = Some c).
Definition in_base (b : Z) (ds : list Z) : Z := fold_left (fun n d => n * b + d) ds 0.

Definition digit_fine (n : nat) (c : ascii) : bool :=
  (digit_of c =? Z.of_nat n) && negb (is_space c) && negb (Ascii.eqb c "-") && negb (Ascii.eqb c "+") && negb (Ascii.eqb c nul) &&
  negb ((Ascii.eqb c "x" || Ascii.eqb c "X") && (Z.of_nat n <? 16)).
Lemma digit_char_fine c d : digit_char c d -> exists n, d = Z.of_nat n /\ digit_fine n c = true.
Proof.
  intros (n & -> & [E|E]); exists n; (split; [reflexivity|]); revert E; cbn [text_of];
    (do 36 (destruct n as [|n]; [intros [= <-]; reflexivity|])); destruct n; discriminate.
Qed.
Lemma digits_spelt b : forall cs ds acc, Forall2 digit_char cs ds -> Forall (fun d => d < b) ds -> digits b acc cs = fold_left (fun n d => n * b + d) ds acc.
Proof.
  intros cs ds acc F. revert acc. induction F as [|c d cs ds D F IH]; intros acc L; [reflexivity|]. inversion L; subst. cbn [digits fold_left].
  destruct (digit_char_fine _ _ D) as (n & -> & Q). unfold digit_fine in Q. rewrite !Bool.andb_true_iff in Q. destruct Q as (((((Q & _) & _) & _) & _) & _). apply Z.eqb_eq in Q. rewrite Q.
  destruct (Z.ltb_spec (Z.of_nat n) b); [|lia]. apply IH; auto.
Qed.
Lemma mag_spelt b cs ds : 2 <= b <= 36 -> Forall2 digit_char cs ds -> Forall (fun d => d < b) ds -> strtol_mag b cs = in_base b ds.
Proof.
  intros B F L. unfold strtol_mag. destruct (Z.eqb_spec b 0); [lia|]. cbn [orb]. destruct (Z.eqb_spec b 16) as [->|].
  - replace (drop_0x cs) with (@None text); [apply digits_spelt; auto|]. destruct F as [|a d1 cs ds _ F]; [reflexivity|]. destruct F as [|x d2 cs ds D F]; [reflexivity|]. destruct F as [|y d3 cs ds _ F]; [reflexivity|].
    cbn [drop_0x]. destruct (digit_char_fine _ _ D) as (k & -> & Q). unfold digit_fine in Q. rewrite !Bool.andb_true_iff in Q. destruct Q as (_ & Q).
    inversion L as [|? ? _ L1]; subst. inversion L1 as [|? ? Ln _]; subst. destruct (Z.ltb_spec (Z.of_nat k) 16); [|lia]. rewrite Bool.andb_true_r in Q. apply Bool.negb_true_iff in Q. rewrite Q, Bool.andb_false_r. reflexivity.
  - apply digits_spelt; auto.
Qed.
Theorem stoi_reads_base : forall {H} (M : machine H) (t : thread H) v b sign cs ds,
  2 <= b <= 36 -> In sign [[]; text_of "-"; text_of "+"] -> cs <> [] -> Forall2 digit_char cs ds -> Forall (fun d => d < b) ds -> in_base b ds < 2^63 ->
  text_of_value (t_heap t) v (sign ++ cs) ->
  returns M std_stoi [v; VInt b] t (VInt (wrap32 (if text_eqb sign (text_of "-") then - in_base b ds else in_base b ds))) t.
Proof.
  intros H M t v b sign cs ds B Sg Ne F L Lt T callf. unfold std_stoi. cbn [arg nth_error length Nat.ltb Nat.leb to_int].
  rewrite (with_chars_run M callf v _ _ t T). cbn [run_fprog]. unfold new_int. rewrite (wrap32_in b) by (unfold in_int32; rewrite Bool.andb_true_iff, Z.leb_le, Z.ltb_lt; lia).
  enough (Eq : strtol (sign ++ cs) b = if text_eqb sign (text_of "-") then - in_base b ds else in_base b ds) by (rewrite Eq; reflexivity).
  assert (P : 0 <= in_base b ds).
  { unfold in_base. rewrite <- (digits_spelt b cs ds 0 F L). clear -F B L. assert (H : forall acc, 0 <= acc -> 0 <= digits b acc cs); [|apply H; lia].
    induction F as [|c d cs ds D F IH]; intros acc A; [exact A|]. inversion L; subst. cbn [digits]. destruct (digit_char_fine _ _ D) as (n & -> & Q). unfold digit_fine in Q. rewrite !Bool.andb_true_iff in Q.
    destruct Q as (((((Q & _) & _) & _) & _) & _). apply Z.eqb_eq in Q. rewrite Q. destruct (Z.of_nat n <? b); [|exact A]. apply IH; [assumption|]. pose proof (Zle_0_nat n). pose proof (Z.mul_nonneg_nonneg acc b A ltac:(lia)). lia. }
  assert (Nf : forall s, Forall (fun c => Ascii.eqb c nul = false) s -> until_nul s = s).
  { intros s Fs. apply until_nul_free. intros I. rewrite Forall_forall in Fs. specialize (Fs _ I). discriminate Fs. }
  assert (Fc : Forall (fun c => Ascii.eqb c nul = false) cs).
  { clear -F. induction F as [|c d cs ds D F IH]; constructor; auto. destruct (digit_char_fine _ _ D) as (n & -> & Q). unfold digit_fine in Q. rewrite !Bool.andb_true_iff, !Bool.negb_true_iff in Q. tauto. }
  unfold strtol. replace ((b <? 0) || (b =? 1) || (36 <? b))%bool with false by (symmetry; rewrite !Bool.orb_false_iff, !Z.ltb_ge, Z.eqb_neq; lia).
  rewrite Nf.
  2: { apply Forall_app. split; [|exact Fc]. cbn [In] in Sg. destruct Sg as [<-|[<-|[<-|[]]]]; repeat constructor. }
  pose proof (mag_spelt b cs ds B F L) as Mg. cbn [In] in Sg. destruct Sg as [<-|[<-|[<-|[]]]]; cbn [app text_of].
  - destruct F as [|c d cs ds D F]; [congruence|]. destruct (digit_char_fine _ _ D) as (n & -> & Q). unfold digit_fine in Q. rewrite !Bool.andb_true_iff, !Bool.negb_true_iff in Q.
    destruct Q as (((((_ & Q1) & Q2) & Q3) & _) & _). cbn [skip_space]. rewrite Q1, Q2, Q3, Mg. change (text_eqb [] _) with false. cbn iota. lia.
  - cbn [skip_space]. change (is_space "-") with false. change (Ascii.eqb "-" "-") with true. cbn iota. rewrite Mg. cbv iota beta. set (q := in_base b ds) in *. rewrite Z.max_l by lia. reflexivity.
  - cbn [skip_space]. change (is_space "+") with false. change (Ascii.eqb "+" "-") with false. change (Ascii.eqb "+" "+") with true. cbn iota. rewrite Mg. cbv iota beta. set (q := in_base b ds) in *. rewrite Z.min_l by lia. reflexivity.
Qed.
Print Assumptions stoi_reads_base.
Example stoi_base_case : Forall2 digit_char (text_of "7Fe") [7; 15; 14] /\ Forall (fun d => d < 16) [7; 15; 14] /\ in_base 16 [7; 15; 14] = 2046.
Proof.
  split; [|split; [repeat constructor|reflexivity]].
  apply Forall2_cons; [exists 7%nat; split; [reflexivity|left; reflexivity]|]. apply Forall2_cons; [exists 15%nat; split; [reflexivity|right; reflexivity]|].
  apply Forall2_cons; [exists 14%nat; split; [reflexivity|left; reflexivity]|]. apply Forall2_nil.
Qed.

(** Tiny's ints have 64 bits, but [stoi] only keeps 32 of them. *)
Definition idle : machine unit := mkMachine unit [] [] [] [] 0 (mkNatives unit (fun _ _ _ => []) (fun _ w _ => w)) None 0.
Theorem stoi_64_bits_refuted : ~ (forall (t : thread unit) v z,
  text_of_value (t_heap t) v (decimal z) -> - 2^63 <= z < 2^63 -> returns idle std_stoi [v] t (VInt z) t).
Proof.
  intros A. specialize (A (init_thread tt) (VCStr (text_of "2147483648")) (2^31) (tv_const _ _) ltac:(lia) (fun _ _ _ => UB)).
  discriminate A.
Qed.
Print Assumptions stoi_64_bits_refuted.

(** ** C38: printf.  [emit] appends to the output [out]; printing leaves the
    library's arrays alone. *)
Theorem printf_prints : forall {H} (M : machine H) emit fmt_f native_text elements (out : H -> text) array_of (ok : H -> Prop),
  (forall s w, out (emit s w) = out w ++ s) ->
  (forall w a p, ok w -> elements w a p = array_of a p) -> (forall s w, ok w -> ok (emit s w)) ->
  forall (t : thread H) v fmt args o, ok (t_host t) ->
  text_of_value (t_heap t) v fmt -> rendered fmt_f array_of (t_heap t) fmt args o ->
  exists depth, forall fuel, (depth <= fuel)%nat -> exists w, out w = out (t_host t) ++ o /\
    returns M (std_printf emit fmt_f native_text elements fuel) (v :: args) t VNull (with_host t w).
Proof.
  intros H M emit fmt_f native_text elements out array_of ok O1 O2 O3 t v fmt args o Ok0 T R.
  destruct (printf_ends M emit fmt_f native_text elements out array_of ok O1 O2 O3 (t_heap t) fmt args o R) as (n & E).
  exists n. intros fuel L. destruct (E fuel L t eq_refl Ok0) as (w & W & _ & G). exists w. split; auto.
  intros callf. unfold std_printf. rewrite (with_chars_run M callf v fmt _ t T). exact (G callf).
Qed.
Print Assumptions printf_prints.

(** The host of the examples: memory is what was printed so far. *)
Definition screen : machine text := mkMachine text [] [] [] [] 0 (mkNatives text (fun _ _ _ => []) (fun _ w _ => w)) None 0.
Definition on_screen (fuel : nat) : list value -> fprog text :=
  std_printf (fun s w => w ++ s) (fun _ => text_of "1.500000") (fun _ _ _ => text_of "<native>")
    (fun _ a _ => if a =? 5 then Some [VInt 1; VCStr (text_of "b")] else None) fuel.

(** Writing a percent sign with [%%] consumes an argument and complains. *)
Theorem percent_percent_refuted : ~ (forall (t : thread text) o, o = text_of "100%" ->
  exists fuel w, w = t_host t ++ o /\ returns screen (on_screen fuel) [VCStr (text_of "100%%"); VNull] t VNull (with_host t w)).
Proof.
  intros A. destruct (A (init_thread []) _ eq_refl) as (fuel & w & -> & R). specialize (R (fun _ _ _ => UB)). discriminate R.
Qed.
Print Assumptions percent_percent_refuted.
Theorem percent_percent_needs_argument : forall (t : thread text) fuel, aborts screen (on_screen fuel) [VCStr (text_of "100%%")] t.
Proof. intros t fuel callf. reflexivity. Qed.
Print Assumptions percent_percent_needs_argument.

(** A format that asks for more arguments than it was given: what comes before
    uses them all up, and then the program exits. *)
Theorem printf_too_few_arguments : forall {H} (M : machine H) emit fmt_f native_text elements (out : H -> text) array_of (ok : H -> Prop),
  (forall s w, out (emit s w) = out w ++ s) ->
  (forall w a p, ok w -> elements w a p = array_of a p) -> (forall s w, ok w -> ok (emit s w)) ->
  forall (t : thread H) v before rest args o, ok (t_host t) ->
  text_of_value (t_heap t) v (before ++ "%"%char :: rest) -> nul_free before ->
  rendered fmt_f array_of (t_heap t) before args o ->
  (forall fewer last o', args = fewer ++ [last] -> ~ rendered fmt_f array_of (t_heap t) before fewer o') ->
  exists depth, forall fuel, (depth <= fuel)%nat -> aborts M (std_printf emit fmt_f native_text elements fuel) (v :: args) t.
Proof.
  intros H M emit fmt_f native_text elements out array_of ok O1 O2 O3 t v before rest args o Ok0 T F R X.
  destruct (printf_starves M emit fmt_f native_text elements out array_of ok O1 O2 O3 (t_heap t) rest before args o R F X) as (n & E).
  exists n. intros fuel L callf. unfold std_printf. rewrite (with_chars_run M callf v _ _ t T). exact (E fuel L t eq_refl Ok0 callf).
Qed.
Print Assumptions printf_too_few_arguments.
Example too_few_case : forall hp fmt_f array_of,
  rendered fmt_f array_of hp (text_of "%i, ") [VInt 7] (text_of "7, ") /\
  (forall fewer last o', [VInt 7] = fewer ++ [last] -> ~ rendered fmt_f array_of hp (text_of "%i, ") fewer o').
Proof.
  intros hp fmt_f array_of. split.
  - refine (rd_int _ _ _ 7 _ _ (text_of ", ") _). cbn [text_of]. apply rd_char; [discriminate|discriminate|]. apply rd_char; [discriminate|discriminate|]. apply rd_end.
  - intros [|x [|y fewer]] last o' E R; try discriminate. inversion R; subst. congruence.
Qed.
Example odd_formats : forall hp fmt_f array_of,
  rendered fmt_f array_of hp (text_of "50%%%d%i") [VNull; VInt 3; VFloat (2^64 - 1)]
    (text_of "50%" ++ ["010"%char] ++ text_of "Invalid format specifier '%'" ++ ["010"%char] ++
     ["010"%char] ++ text_of "Invalid format specifier 'd'" ++ ["010"%char] ++ text_of "-1").
Proof.
  intros hp fmt_f array_of. cbn [text_of]. apply rd_char; [discriminate|discriminate|]. apply rd_char; [discriminate|discriminate|].
  refine (rd_percent _ _ _ VNull _ _ _ _). refine (rd_unknown _ _ _ "d" (VInt 3) _ _ (text_of "-1") _ _).
  - cbn [In]. intros X. repeat destruct X as [X|X]; try discriminate; auto.
  - refine (rd_int_bits _ _ _ (2^64 - 1) (-1) [] [] [] _ _ _ _); [lia|lia|reflexivity|apply rd_end].
Qed.

(** A lone [%] at the end of the format reads past its terminator. *)
Theorem trailing_percent_undefined : forall (t : thread text) fuel v, undefined screen (on_screen fuel) [VCStr (text_of "50%"); v] t.
Proof. intros t fuel v callf. reflexivity. Qed.
Print Assumptions trailing_percent_undefined.

(** [%q] of a bool prints nothing. *)
Theorem quoted_bool_is_silent : forall (t : thread text) b,
  returns screen (on_screen 1) [VCStr (text_of "<%q>"); VBool b] t VNull (with_host t (t_host t ++ text_of "<" ++ text_of ">")).
Proof.
  intros t b callf. cbn. destruct t as [pc fp stk fr ret gl hp nx no mx ho]. cbn. rewrite <- app_assoc. reflexivity.
Qed.
Print Assumptions quoted_bool_is_silent.

(** ** The hypotheses are met *)
Definition shelf : thread text :=
  mkThread 0 0 [VInt 7] [] VNull None
    [mkObj 2 false (BNative 5 9); mkObj 1 false (BStruct [VInt 3; VNull; VNative 2]); mkObj 0 false (BStr (text_of "hello"))] 3 3 8 (text_of "> ").
Example shelf_strings :
  is_string (t_heap shelf) (VStr 0) (text_of "hello") /\ is_string (t_heap shelf) (VCStr (text_of " you")) (text_of " you").
Proof.
  split.
  - split; [apply tv_heap with (m := false); reflexivity|]. right. exists 0%nat. reflexivity.
  - split; [apply tv_const|]. left. intros I. cbn in I. repeat (destruct I as [I|I]; [discriminate I|]). exact I.
Qed.
Example shelf_strcat : exists v t', returns screen std_strcat [VStr 0; VCStr (text_of " you"); VStr 0] shelf v t' /\
  new_string shelf (text_of "hello youhello") v t'.
Proof.
  refine (strcat_concatenates screen shelf _ [text_of "hello"; text_of " you"; text_of "hello"] _).
  destruct shelf_strings as (A & B). apply Forall2_cons; [exact A|]. apply Forall2_cons; [exact B|]. apply Forall2_cons; [exact A|]. apply Forall2_nil.
Qed.
Example shelf_others :
  (exists r t', returns screen std_substr [VStr 0; VInt 1; VInt (-1)] shelf r t' /\ new_string shelf (text_of "ello") r t') /\
  returns screen std_strlen [VStr 0] shelf (VInt 5) shelf /\
  returns screen std_stridx [VStr 0; VInt 1] shelf (VInt 101) shelf /\
  returns screen std_strchr [VStr 0; VInt 108] shelf (VInt 2) shelf /\
  aborts screen std_stridx [VStr 0; VInt 5] shelf /\
  aborts screen std_substr [VStr 0; VInt 4; VInt 9] shelf /\
  returns screen std_stoi [VCStr (text_of " -42 apples")] shelf (VInt (-42)) shelf.
Proof.
  split; [|repeat split].
  eexists _, _. split; [intros callf; reflexivity|]. apply new_string_alloc.
Qed.
Example shelf_printf : rendered (fun _ => text_of "1.500000") (fun a _ => if a =? 5 then Some [VInt 1; VCStr (text_of "b")] else None)
  (t_heap shelf) (text_of "%s: %i%c %f %q!") [VStr 0; VInt (-12); VInt 59; VFloat 0; VStruct 1]
  (text_of "hello: -12; 1.500000 struct {3, <null>, [1, ""b""]}!").
Proof.
  assert (F : forall s, forallb (fun c => negb (Ascii.eqb c "000")) s = true -> nul_free s).
  { intros s E I. rewrite forallb_forall in E. specialize (E _ I). discriminate E. }
  Ltac lit := apply rd_char; [discriminate|discriminate|].
  cbn [text_of].
  apply (rd_string _ _ _ _ (text_of "hello") []); [apply shelf_strings|apply F; reflexivity|left; reflexivity|]. lit. lit.
  refine (rd_int _ _ _ (-12) _ _ (text_of "; 1.500000 struct {3, <null>, [1, ""b""]}!") _). cbn [text_of]. refine (rd_chr _ _ _ ";" 59 _ _ _ eq_refl _). lit.
  refine (rd_float _ _ _ 0 _ _ (text_of " struct {3, <null>, [1, ""b""]}!") _). cbn [text_of]. lit.
  refine (rd_quoted _ _ _ _ (text_of "struct {3, <null>, [1, ""b""]}") _ _ (text_of "!") _ _).
  - refine (sh_struct _ _ (t_heap shelf) 1 false [VInt 3; VNull; VNative 2] (text_of "3, <null>, [1, ""b""]") eq_refl _).
    apply (shl_cons _ _ _ true (VInt 3) _ (text_of "3")); [apply sh_int|].
    apply (shl_cons _ _ _ false VNull _ (text_of "<null>")); [apply sh_null|].
    apply (shl_cons _ _ _ false (VNative 2) [] (text_of "[1, ""b""]") []); [|apply shl_nil].
    refine (sh_array _ _ (t_heap shelf) 2 false 5 9 [VInt 1; VCStr (text_of "b")] (text_of "1, ""b""") eq_refl eq_refl _).
    apply (shl_cons _ _ _ true (VInt 1) _ (text_of "1")); [apply sh_int|].
    apply (shl_cons _ _ _ false (VCStr (text_of "b")) [] (text_of """b""") []); [|apply shl_nil].
    refine (sh_string _ _ _ _ (text_of "b") [] _ _ _); [apply tv_const|apply F; reflexivity|left; reflexivity].
  - cbn [text_of]. lit. apply rd_end.
Qed.
Example shelf_printf_run : returns screen (on_screen 5) [VCStr (text_of "%s: %i%c %f %q!"); VStr 0; VInt (-12); VInt 59; VFloat 0; VStruct 1]
  shelf VNull (with_host shelf (text_of "> hello: -12; 1.500000 struct {3, <null>, [1, ""b""]}!")).
Proof. intros callf. vm_compute. reflexivity. Qed.
