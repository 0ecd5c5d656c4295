(** * Properties C01-C05: values, arrays, dicts *)
From Coq Require Import Permutation.
From Verif Require Import Base Float64 Values ValuesSpec ValuesProofs Array ArraySpec ArrayProofs
  Dict DictSpec DictTheory.
Local Open Scope nat_scope.

(** ** C01  An array created from a literal list, and an initially empty one *)
Theorem array_is_list : forall vs os,
  history_supported true vs os = true ->
  exists a0, init_array_ex vs = Ok a0 /\
  match list_run vs os with
  | None => array_run a0 os = Abort
  | Some (l, rs) => exists a, array_run a0 os = Ok (a, rs) /\ shows a l
  end.
Proof. exact array_is_list_L. Qed.
Print Assumptions array_is_list.

Theorem empty_array_is_list : forall os,
  history_supported false [] os = true ->
  match list_run [] os with
  | None => array_run init_array os = Abort
  | Some (l, rs) => exists a, array_run init_array os = Ok (a, rs) /\ shows a l
  end.
Proof. exact empty_array_is_list_L. Qed.
Print Assumptions empty_array_is_list.

Theorem array_capacity_bound : forall vs os a0 a rs,
  init_array_ex vs = Ok a0 -> history_supported true vs os = true ->
  array_run a0 os = Ok (a, rs) ->
  exists b, a = Some b /\ sb_cap b <= 2 * list_peak vs os.
Proof. exact capacity_bound_L. Qed.
Print Assumptions array_capacity_bound.

Example array_history_ok :
  history_supported true [VInt 7] [APush (VInt 1); APush (VInt 2); AInsert 1 (VInt 9); APop; AShift;
     AResize 1 VNull; AClear; APush VNull; AGet 0] = true /\
  list_run [VInt 7] [APush (VInt 1); APush (VInt 2); AInsert 1 (VInt 9); APop; AShift;
     AResize 1 VNull; AGet 0; AClear; APush VNull; ALen] =
   Some ([VNull], [RUnit; RUnit; RUnit; RVal (VInt 2); RVal (VInt 7); RUnit; RVal (VInt 9);
                   RUnit; RUnit; RLen 1]).
Proof. split; vm_compute; reflexivity. Qed.

(** The unsupported operations really misbehave: clearing an array that never
    held storage dereferences NULL - 2. *)
Theorem array_clear_refuted : exists os, list_run [] os = Some ([], [RUnit]) /\
  array_run init_array os = UB.
Proof. exists [AClear]. split; reflexivity. Qed.
Print Assumptions array_clear_refuted.

(** ** C02 *)
Theorem array_resize_fills : forall vs os l rs n v,
  history_supported true vs os = true -> list_run vs os = Some (l, rs) ->
  (0 <= n)%Z -> (n <= Z.of_nat (length l))%Z \/ l = [] ->
  exists a0 a a', init_array_ex vs = Ok a0 /\ array_run a0 os = Ok (a, rs) /\
    array_resize a n v = Ok a' /\
    shows a' (firstn (Z.to_nat n) l ++ repeat v (Z.to_nat n - length l)).
Proof. exact resize_partial_L. Qed.
Print Assumptions array_resize_fills.

(** Growing a non-empty array always writes outside its buffer when it was
    just created from a list. *)
Theorem array_resize_refuted : forall vs v n,
  vs <> [] -> (Z.of_nat (length vs) < n)%Z ->
  exists a, init_array_ex vs = Ok a /\ array_resize a n v = UB.
Proof. exact resize_grow_oob_L. Qed.
Print Assumptions array_resize_refuted.

(** ... and after any history: growing a non-empty array either writes outside
    its buffer, whatever the value, or leaves old memory ([junk], which does not
    depend on the value) in the slots before twice the old length.  So the value
    given never reaches the first new slot. *)
Theorem array_resize_grows : forall vs os l rs n,
  history_supported true vs os = true -> list_run vs os = Some (l, rs) -> l <> [] -> (Z.of_nat (length l) < n)%Z ->
  exists a0 a, init_array_ex vs = Ok a0 /\ array_run a0 os = Ok (a, rs) /\
    ((forall v, array_resize a n v = UB) \/
     exists junk, forall v, exists a', array_resize a n v = Ok a' /\
       array_step a' ALen = Ok (a', RLen (Z.to_nat n)) /\
       forall i, i < Z.to_nat n -> seen a' i =
         match nth_error l i with Some x => Some x | None => if i <? 2 * length l then junk i else Some v end).
Proof. exact resize_grow_L. Qed.
Print Assumptions array_resize_grows.

(** Both happen: directly after creation, and after popping four of five. *)
Example grow_cases :
  (exists a, init_array_ex [VInt 1] = Ok a /\ array_resize a 3 (VInt 7) = UB) /\
  exists a0 a rs a', init_array_ex [VInt 1; VInt 2; VInt 3; VInt 4; VInt 5] = Ok a0 /\
    array_run a0 [APop; APop; APop; APop] = Ok (a, rs) /\ array_resize a 3 (VInt 7) = Ok a' /\
    seen a' 0 = Some (VInt 1) /\ seen a' 1 = Some (VInt 2) /\ seen a' 2 = Some (VInt 7).
Proof. split; [eexists; split; reflexivity|]. do 4 eexists. repeat split; reflexivity. Qed.

Example resize_ok :
  history_supported true [VInt 1; VInt 2] [APush VNull] = true /\
  list_run [VInt 1; VInt 2] [APush VNull] = Some ([VInt 1; VInt 2; VNull], [RUnit]).
Proof. split; vm_compute; reflexivity. Qed.

(** ** C03, C04 *)
Theorem dict_is_map : forall place h0 os, keys_stable h0 os ->
  exists d0, init_dict = Ok d0 /\
  match map_run h0 [] (map snd os) with
  | Some (m, rs) => exists d, dict_run place d0 os = Ok (d, rs)
  | None => dict_run place d0 os = Abort
  end.
Proof.
  intros place h0 os H. destruct (dict_is_map_L place h0 os H) as (d0 & E & R).
  exists d0. split; [exact E|]. destruct (map_run h0 [] (map snd os)) as [[m rs]|]; [|exact R].
  destruct R as (d & l & R & _). eauto.
Qed.
Print Assumptions dict_is_map.

Theorem dict_enumeration : forall place h0 os m rs, keys_stable h0 os ->
  map_run h0 [] (map snd os) = Some (m, rs) ->
  exists d0 d l, init_dict = Ok d0 /\ dict_run place d0 os = Ok (d, rs) /\
    dict_enum d = Ok l /\ Permutation l m /\ d_filled d = length m /\
    2 * d_filled d <= d_buckets d /\ distinct_keys h0 l /\ distinct_keys h0 m.
Proof.
  intros place h0 os m rs H E. destruct (dict_is_map_L place h0 os H) as (d0 & E0 & R).
  rewrite E in R. destruct R as (d & l & R). exists d0, d, l. tauto.
Qed.
Print Assumptions dict_enumeration.

Definition ex_heap : heap := [mkObj 4 false (BStr (text_of "key")); mkObj 3 true (BNative 4096 0)].
Definition ex_history : list (heap * dop) :=
  [(ex_heap, DSet (VStr 4) (VInt 1)); (ex_heap, DSet (VCStr (text_of "key")) (VInt 2));
   (mkObj 9 false (BStr []) :: ex_heap, DSet (VNative 3) VNull);
   (ex_heap, DGet (VStr 4)); (ex_heap, DRemove (VCStr (text_of "key"))); (ex_heap, DGet (VStr 4))].
Example dict_history_ok : keys_stable ex_heap ex_history /\
  map_run ex_heap [] (map snd ex_history) =
  Some ([(VNative 3, VNull)], [DUnit; DUnit; DUnit; DFound (VInt 2); DUnit; DAbsent]).
Proof.
  split; [|vm_compute; reflexivity].
  intros h o k h' o' H1 H2 H3. unfold ex_history in *. simpl in H1, H3.
  repeat match goal with H : _ \/ _ |- _ => destruct H end; try contradiction;
  repeat match goal with H : (_, _) = (_, _) |- _ => injection H as <- <- end;
  simpl in H2; try discriminate; injection H2 as <-; simpl; eauto 8.
Qed.

(** ** C05 *)
Theorem equality_symmetric : forall h a b, values_equal h a b = values_equal h b a.
Proof. exact values_equal_sym_L. Qed.
Print Assumptions equality_symmetric.

Theorem equality_transitive : forall h a b c,
  values_equal h a b = Ok true -> values_equal h b c = Ok true -> values_equal h a c = Ok true.
Proof. exact values_equal_trans_L. Qed.
Print Assumptions equality_transitive.

Theorem equality_reflexive : forall h v,
  live h v -> (forall x, v = VFloat x -> f_isnan x = false) -> values_equal h v v = Ok true.
Proof. exact values_equal_refl_L. Qed.
Print Assumptions equality_reflexive.

Theorem equality_defined : forall h a b, live h a -> live h b -> exists t, values_equal h a b = Ok t.
Proof. exact values_equal_total_L. Qed.
Print Assumptions equality_defined.

Theorem equality_is_sameness : forall h a b,
  live h a -> live h b ->
  (forall s, text_of_value h a s -> nul_free s) ->
  (forall s, text_of_value h b s -> nul_free s) ->
  values_equal h a b = Ok true <-> same_value h a b.
Proof. exact values_equal_same_L. Qed.
Print Assumptions equality_is_sameness.

Theorem equal_values_hash_alike : forall place h a b,
  values_equal h a b = Ok true -> hash_value place h a = hash_value place h b.
Proof. exact hash_respects_L. Qed.
Print Assumptions equal_values_hash_alike.

(** With an embedded NUL two different strings compare equal. *)
Theorem equality_embedded_nul_refuted : exists h a b,
  live h a /\ live h b /\ values_equal h a b = Ok true /\ ~ same_value h a b.
Proof.
  exists [mkObj 0 false (BStr ["000"; "a"]%char); mkObj 1 false (BStr ["000"; "b"]%char)], (VStr 0), (VStr 1).
  repeat split; try (simpl; eauto; fail).
  intros H. inversion H; subst.
  match goal with A : text_of_value _ (VStr 0) _, B : text_of_value _ (VStr 1) _ |- _ =>
    inversion A; subst; inversion B; subst; simpl in *; congruence end.
Qed.
Print Assumptions equality_embedded_nul_refuted.

Example equality_ok : live ex_heap (VStr 4) /\ live ex_heap (VCStr (text_of "key")) /\
  values_equal ex_heap (VStr 4) (VCStr (text_of "key")) = Ok true.
Proof. simpl. repeat split; eauto. Qed.
