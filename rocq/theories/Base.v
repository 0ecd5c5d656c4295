(** * Base: outcomes, machine integers, text

    Common vocabulary of the model.  C platform assumptions: LP64, little
    endian, two's complement, [int] 32 bits, [Tiny_Int] = int64_t
    (/repo/tiny/include/tiny.h:36-40), [char] signed. *)

From Coq Require Export Ascii String.
From Coq Require Export List ZArith Lia Bool.
Export ListNotations.
Open Scope Z_scope.

(** Outcome of a run-time operation of the library.
    [Abort]: a C [assert] failed.  [UB]: undefined behaviour.
    [Fuel]: the explicit recursion bound was exhausted (never a success). *)
Inductive outcome (A : Type) : Type :=
| Ok (a : A)
| Abort
| UB
| Fuel.
Arguments Ok {A} a.
Arguments Abort {A}.
Arguments UB {A}.
Arguments Fuel {A}.

Definition obind {A B} (m : outcome A) (f : A -> outcome B) : outcome B :=
  match m with
  | Ok a => f a
  | Abort => Abort
  | UB => UB
  | Fuel => Fuel
  end.

Definition ofail {A B} (m : outcome A) : outcome B :=
  match m with
  | Ok _ => UB
  | Abort => Abort
  | UB => UB
  | Fuel => Fuel
  end.

Declare Scope outcome_scope.
Delimit Scope outcome_scope with outcome.
Notation "x <- m ;; k" := (obind m (fun x => k))
  (at level 61, m at next level, right associativity) : outcome_scope.
Notation "' p <- m ;; k" := (obind m (fun x => match x with p => k end))
  (at level 61, p pattern, m at next level, right associativity) : outcome_scope.

(** C [assert(b)]: asserts are live (no NDEBUG in the build files). *)
Definition oassert {A} (b : bool) (k : outcome A) : outcome A :=
  if b then k else Abort.

(** A precondition whose violation is undefined behaviour. *)
Definition orequire {A} (b : bool) (k : outcome A) : outcome A :=
  if b then k else UB.

Definition of_option {A} (o : option A) : outcome A :=
  match o with Some a => Ok a | None => UB end.

(** Machine integers. *)
Definition wrap32 (z : Z) : Z := (z + 2^31) mod 2^32 - 2^31.
Definition wrap64 (z : Z) : Z := (z + 2^63) mod 2^64 - 2^63.
Definition in_int32 (z : Z) : bool := (- 2^31 <=? z) && (z <? 2^31).
Definition in_int64 (z : Z) : bool := (- 2^63 <=? z) && (z <? 2^63).

(** Text: C strings are lists of non-NUL characters (the terminator is
    implicit), heap strings may contain any character. *)
Definition text := list ascii.

Fixpoint text_of (s : string) : text :=
  match s with
  | EmptyString => []
  | String c s' => c :: text_of s'
  end.

Definition text_eqb (a b : text) : bool :=
  if list_eq_dec ascii_dec a b then true else false.

Lemma text_eqb_eq a b : text_eqb a b = true <-> a = b.
Proof. unfold text_eqb; destruct (list_eq_dec ascii_dec a b); split; congruence. Qed.

Lemma text_eqb_refl a : text_eqb a a = true.
Proof. apply text_eqb_eq; reflexivity. Qed.

(** Value of a C [char] (signed) as an int. *)
Definition char_val (c : ascii) : Z :=
  let n := Z.of_nat (nat_of_ascii c) in
  if n <? 128 then n else n - 256.

Definition update {A} (l : list A) (i : nat) (x : A) : list A :=
  firstn i l ++ match skipn i l with [] => [] | _ :: r => x :: r end.

Lemma update_length {A} (l : list A) i x : length (update l i x) = length l.
Proof.
  unfold update. rewrite app_length.
  rewrite <- (firstn_skipn i l) at 3. rewrite app_length.
  destruct (skipn i l); reflexivity.
Qed.

Lemma nth_error_update_eq {A} (l : list A) i x :
  (i < length l)%nat -> nth_error (update l i x) i = Some x.
Proof.
  revert l; induction i as [|i IH]; intros [|y l] H; simpl in *; try lia.
  - reflexivity.
  - unfold update in *; simpl. apply IH. lia.
Qed.

Lemma nth_error_update_ne {A} (l : list A) i j x :
  i <> j -> nth_error (update l i x) j = nth_error l j.
Proof.
  revert l j; induction i as [|i IH]; intros [|y l] [|j] H; simpl in *;
    try reflexivity; try lia.
  - unfold update in *; simpl. apply IH. lia.
Qed.

Lemma update_oob {A} (l : list A) i x :
  (length l <= i)%nat -> update l i x = l.
Proof.
  intros H. unfold update. rewrite firstn_all2 by lia. rewrite skipn_all2 by lia.
  apply app_nil_r.
Qed.
