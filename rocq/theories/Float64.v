(** * Float64: IEEE-754 binary64 arithmetic on bit patterns

    [Tiny_Float] is [double] (/repo/tiny/include/tiny.h:42-46).  A double is
    represented by its 64-bit pattern, because the union in [Tiny_Value]
    (tiny.h:124-135) lets the VM reinterpret it (TINY_OP_ADD1 on a float).
    Arithmetic goes through the standard library's axiom-free [SpecFloat].
    NaN results are canonicalised (C leaves the payload unspecified). *)

From Verif Require Import Base.
From Coq Require Import Floats.SpecFloat.

Definition f64 := Z. (* 0 <= bits < 2^64 *)

Definition sf_decode (b : Z) : spec_float :=
  let s := Z.testbit b 63 in
  let e := (b / 2^52) mod 2048 in
  let m := b mod 2^52 in
  if e =? 0 then
    match m with
    | Zpos p => S754_finite s p (-1074)
    | _ => S754_zero s
    end
  else if e =? 2047 then
    if m =? 0 then S754_infinity s else S754_nan
  else
    match m + 2^52 with
    | Zpos p => S754_finite s p (e - 1075)
    | _ => S754_nan
    end.

Definition sign_bit (s : bool) : Z := if s then 2^63 else 0.

Definition sf_encode (f : spec_float) : Z :=
  match f with
  | S754_zero s => sign_bit s
  | S754_infinity s => sign_bit s + 2047 * 2^52
  | S754_nan => 2047 * 2^52 + 2^51
  | S754_finite s m e =>
      if Zpos m <? 2^52 then sign_bit s + Zpos m
      else sign_bit s + (e + 1075) * 2^52 + (Zpos m - 2^52)
  end.

Definition prec := 53.
Definition emax := 1024.

Definition fadd (a b : Z) : Z := sf_encode (SFadd prec emax (sf_decode a) (sf_decode b)).
Definition fsub (a b : Z) : Z := sf_encode (SFsub prec emax (sf_decode a) (sf_decode b)).
Definition fmul (a b : Z) : Z := sf_encode (SFmul prec emax (sf_decode a) (sf_decode b)).
Definition fdiv (a b : Z) : Z := sf_encode (SFdiv prec emax (sf_decode a) (sf_decode b)).
Definition feqb (a b : Z) : bool := SFeqb (sf_decode a) (sf_decode b).
Definition fltb (a b : Z) : bool := SFltb (sf_decode a) (sf_decode b).
Definition fleb (a b : Z) : bool := SFleb (sf_decode a) (sf_decode b).

(** (double) of an int64_t. *)
Definition f_of_int (z : Z) : Z := sf_encode (binary_normalize prec emax z 0 false).

(** (double)(float) of a double: round to binary32, widen again. *)
Definition sf_to_single (f : spec_float) : spec_float :=
  match f with
  | S754_finite s m e =>
      let z := if s then Zneg m else Zpos m in
      match binary_normalize 24 128 z e s with
      | S754_finite s' m' e' =>
          let z' := if s' then Zneg m' else Zpos m' in
          binary_normalize prec emax z' e' s'
      | r => r
      end
  | r => r
  end.
Definition f_single (b : Z) : Z := sf_encode (sf_to_single (sf_decode b)).

(** Correctly rounded quotient of two non-negative integers (for strtod). *)
Definition f_of_ratio (n d : Z) : Z :=
  match n, d with
  | Zpos pn, Zpos pd =>
      sf_encode (SFdiv prec emax (S754_finite false pn 0) (S754_finite false pd 0))
  | _, _ => 0
  end.

(** Truncation toward zero; [None] for NaN and infinities. *)
Definition f_trunc (b : Z) : option Z :=
  match sf_decode b with
  | S754_zero _ => Some 0
  | S754_finite s m e =>
      let a := if 0 <=? e then Zpos m * 2^e else Zpos m / 2^(-e) in
      Some (if s then - a else a)
  | _ => None
  end.

Definition f_isnan (b : Z) : bool :=
  match sf_decode b with S754_nan => true | _ => false end.

Example f_one : f_of_int 1 = 4607182418800017408. Proof. reflexivity. Qed.
Example f_add_ex : fadd (f_of_ratio 15 10) (f_of_ratio 225 100) = f_of_ratio 375 100.
Proof. vm_compute. reflexivity. Qed.
Example f_tenth : f_of_ratio 1 10 = 4591870180066957722. Proof. vm_compute. reflexivity. Qed.
Example f_tenth_single : f_single (f_of_ratio 1 10) = 4591870180174331904.
Proof. vm_compute. reflexivity. Qed.
Example f_trunc_ex : f_trunc (f_of_ratio 375 100) = Some 3. Proof. vm_compute. reflexivity. Qed.

(** Equality of floats is symmetric and transitive; reflexive except on NaN. *)
Lemma SFcompare_refl x : x <> S754_nan -> SFcompare x x = Some Eq.
Proof.
  destruct x as [s|s| |s m e]; simpl; intros H; try congruence; try (destruct s; congruence).
  rewrite Z.compare_refl.
  assert (R : Pos.compare_cont Eq m m = Eq) by apply Pos.compare_cont_refl.
  destruct s; rewrite R; reflexivity.
Qed.

Lemma SFcompare_eq_inv x y :
  SFcompare x y = Some Eq ->
  x = y \/ (exists s s', x = S754_zero s /\ y = S754_zero s').
Proof.
  destruct x as [sx|sx| |sx mx ex], y as [sy|sy| |sy my ey]; simpl; try congruence;
    try (destruct sx; congruence); try (destruct sy; congruence).
  - intros _. right. eauto.
  - destruct sx, sy; try congruence; auto.
  - destruct sx, sy; try congruence; destruct (ex ?= ey) eqn:E; simpl; try congruence;
      destruct (Pcompare mx my Eq) eqn:M; simpl; try congruence; intros _; left;
      apply Z.compare_eq in E; apply Pos.compare_eq in M; congruence.
Qed.

Lemma SFcompare_eq_sym x y :
  SFcompare x y = Some Eq -> SFcompare y x = Some Eq.
Proof.
  intros H. destruct (SFcompare_eq_inv _ _ H) as [E|(s & s' & Ex & Ey)]; subst.
  - exact H.
  - reflexivity.
Qed.

Lemma feqb_sym a b : feqb a b = feqb b a.
Proof.
  unfold feqb, SFeqb.
  destruct (SFcompare (sf_decode a) (sf_decode b)) as [[]|] eqn:E1;
  destruct (SFcompare (sf_decode b) (sf_decode a)) as [[]|] eqn:E2; try reflexivity;
  try (apply SFcompare_eq_sym in E1; congruence);
  try (apply SFcompare_eq_sym in E2; congruence).
Qed.

Lemma feqb_trans a b c : feqb a b = true -> feqb b c = true -> feqb a c = true.
Proof.
  unfold feqb, SFeqb. intros H1 H2.
  destruct (SFcompare (sf_decode a) (sf_decode b)) as [[]|] eqn:E1; try discriminate.
  destruct (SFcompare (sf_decode b) (sf_decode c)) as [[]|] eqn:E2; try discriminate.
  destruct (SFcompare_eq_inv _ _ E1) as [E|(s & s' & Ea & Eb)].
  - rewrite E, E2. reflexivity.
  - destruct (SFcompare_eq_inv _ _ E2) as [E|(t & t' & Eb' & Ec)].
    + rewrite <- E, E1. reflexivity.
    + rewrite Ea, Ec. reflexivity.
Qed.

Lemma feqb_refl a : f_isnan a = false -> feqb a a = true.
Proof.
  unfold feqb, SFeqb, f_isnan. intros H.
  rewrite SFcompare_refl; [reflexivity|]. intros E; rewrite E in H; discriminate.
Qed.

Lemma feqb_nan a : f_isnan a = true -> forall b, feqb a b = false.
Proof.
  unfold feqb, SFeqb, f_isnan. intros H b.
  destruct (sf_decode a); try discriminate. reflexivity.
Qed.
