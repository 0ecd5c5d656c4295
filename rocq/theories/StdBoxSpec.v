(** * What the library's arrays and dicts are, to a program: lists and finite maps

    The containers a program created, in order of creation; [touched] of a list:
    it ever had storage (ArraySpec.v). *)
From Coq Require Import Sorted Permutation.
From Verif Require Import Base Float64 Values Heap Code VM Array ArraySpec Dict DictSpec Std StdSpec StdBox.
Local Open Scope Z_scope.

Inductive box := BoxList (touched : bool) (l : list value) | BoxMap (m : fmap).

(** The calls; [v] is the container. *)
Inductive box_call :=
| QArray (primitive : bool) (vs : list value)
| QList (v : value) (o : aop)
| QResize (v : value) (n : Z)
| QSort (v : value)
| QDict (args : list value)
| QPut (v k x : value) | QExists (v k : value) | QGet (v k : value)
| QRemove (v k : value) | QClear (v : value)
| QKeys (v : value) | QValues (v : value).

(** The library function and the arguments it is called with. *)
Definition the_function (place : nat -> Z) (c : box_call) : list value -> fprog store :=
  match c with
  | QArray false _ => create_array
  | QArray true _ => create_primitive_array
  | QList _ (APush _) => lib_array_push false
  | QList _ APop => lib_array_pop false
  | QList _ AShift => lib_array_shift false
  | QList _ (AInsert _ _) => lib_array_insert false
  | QList _ (ARemove _) => lib_array_remove false
  | QList _ (ASet _ _) => lib_array_set false
  | QList _ (AGet _) => lib_array_get false
  | QList _ (AResize _ _) => lib_array_resize_fill false
  | QList _ AClear => lib_array_clear false
  | QList _ ALen => lib_array_len false
  | QResize _ _ => lib_array_resize false
  | QSort _ => lib_array_sort
  | QDict _ => create_dict place
  | QPut _ _ _ => lib_dict_put place
  | QExists _ _ => lib_dict_exists place
  | QGet _ _ => lib_dict_get place
  | QRemove _ _ => lib_dict_remove place
  | QClear _ => lib_dict_clear place
  | QKeys _ => lib_dict_keys
  | QValues _ => lib_dict_values
  end.

Definition the_arguments (c : box_call) : list value :=
  match c with
  | QArray _ vs => vs
  | QList v o =>
      v :: match o with
           | APush x => [x]
           | AInsert i x | ASet i x | AResize i x => [VInt i; x]
           | ARemove i | AGet i => [VInt i]
           | APop | AShift | AClear | ALen => []
           end
  | QResize v n => [v; VInt n]
  | QSort v | QClear v | QKeys v | QValues v => [v]
  | QDict args => args
  | QPut v k x => [v; k; x]
  | QExists v k | QGet v k | QRemove v k => [v; k]
  end.

(** Indices and lengths are ints of C. *)
Definition int_ok (c : box_call) : Prop :=
  match c with
  | QList _ (AInsert i _) | QList _ (ASet i _) | QList _ (AResize i _)
  | QList _ (ARemove i) | QList _ (AGet i) | QResize _ i => in_int32 i = true
  | _ => True
  end.

(** [v] is the native for container number [i]. *)
Definition owns (h : heap) (v : value) (i : nat) (p : nat) : Prop :=
  exists id m, v = VNative id /\ hget h id = Some (mkObj id m (BNative (Z.of_nat (S i)) p)).

Definition replace (B : list box) (i : nat) (b : box) : list box := firstn i B ++ b :: skipn (S i) B.

(** What a call gives back: a value, or the native for a new container. *)
Inductive reply := Gives (v : value) | GivesNew (p : nat).

Definition list_reply (r : ares) : value :=
  match r with RUnit => VNull | RVal v => v | RLen n => VInt (wrap32 (Z.of_nat n)) end.

Fixpoint to_pairs (args : list value) : option (list (value * value)) :=
  match args with
  | [] => Some []
  | [_] => None
  | k :: v :: args' => match to_pairs args' with Some l => Some ((k, v) :: l) | None => None end
  end.

(** [answers h B c r]: with containers [B], the call [c] may leave the containers
    and give the reply in [r]; [None]: the program is aborted. *)
Inductive answers (h : heap) (B : list box) : box_call -> option (list box * reply) -> Prop :=
| an_array prim vs :
    answers h B (QArray prim vs) (Some (B ++ [BoxList true vs], GivesNew (if prim then 2%nat else 1%nat)))
| an_list v o i p t l : owns h v i p -> p = 1%nat \/ p = 2%nat -> nth_error B i = Some (BoxList t l) ->
    op_supported t l o = true ->
    answers h B (QList v o)
      (match list_step l o with
       | Some (l', r) => Some (replace B i (BoxList (op_touches t l o) l'), Gives (list_reply r))
       | None => None
       end)
| an_resize v n i p t l : owns h v i p -> p = 1%nat \/ p = 2%nat -> nth_error B i = Some (BoxList t l) ->
    op_supported t l (AResize n VNull) = true ->
    answers h B (QResize v n)
      (match list_step l (AResize n VNull) with
       | Some (l', r) => Some (replace B i (BoxList (op_touches t l (AResize n VNull)) l'), Gives VNull)
       | None => None
       end)
| an_sort v i p t l l' : owns h v i p -> p = 1%nat \/ p = 2%nat -> nth_error B i = Some (BoxList t (map VInt l)) ->
    (forall a b, In a l -> In b l -> in_int32 (a - b) = true) ->
    Permutation l l' -> Sorted Z.le l' ->
    answers h B (QSort v) (Some (replace B i (BoxList t (map VInt l')), Gives VNull))
| an_sort_one v i p t x : owns h v i p -> p = 1%nat \/ p = 2%nat -> nth_error B i = Some (BoxList t [x]) ->
    answers h B (QSort v) (Some (B, Gives VNull))
| an_sort_abort v i p t l x : owns h v i p -> p = 1%nat \/ p = 2%nat -> nth_error B i = Some (BoxList t l) ->
    (2 <= length l)%nat -> In x l -> (forall z, x <> VInt z) ->
    answers h B (QSort v) None
| an_dict args l : to_pairs args = Some l ->
    answers h B (QDict args)
      (match map_run h [] (map (fun e => DSet (fst e) (snd e)) l) with
       | Some (m, _) => Some (B ++ [BoxMap m], GivesNew 3)
       | None => None
       end)
| an_dict_odd args : to_pairs args = None -> answers h B (QDict args) None
| an_put v k x i m : owns h v i 3 -> nth_error B i = Some (BoxMap m) ->
    answers h B (QPut v k x)
      (if hashable h k then Some (replace B i (BoxMap (m_set h m k x)), Gives VNull) else None)
| an_exists v k i m : owns h v i 3 -> nth_error B i = Some (BoxMap m) ->
    answers h B (QExists v k)
      (if hashable h k
       then Some (B, Gives (VBool (match m_get h m k with Some _ => true | None => false end))) else None)
| an_get v k i m : owns h v i 3 -> nth_error B i = Some (BoxMap m) ->
    answers h B (QGet v k)
      (if hashable h k then Some (B, Gives (match m_get h m k with Some x => x | None => VNull end)) else None)
| an_remove v k i m : owns h v i 3 -> nth_error B i = Some (BoxMap m) ->
    answers h B (QRemove v k)
      (if hashable h k then Some (replace B i (BoxMap (m_remove h m k)), Gives VNull) else None)
| an_clear v i m : owns h v i 3 -> nth_error B i = Some (BoxMap m) ->
    answers h B (QClear v) (Some (replace B i (BoxMap []), Gives VNull))
| an_keys v i m l : owns h v i 3 -> nth_error B i = Some (BoxMap m) -> Permutation l (map fst m) ->
    answers h B (QKeys v)
      (Some (B ++ [BoxList (match m with [] => false | _ => true end) l], GivesNew 1))
| an_values v i m l : owns h v i 3 -> nth_error B i = Some (BoxMap m) -> Permutation l (map snd m) ->
    answers h B (QValues v)
      (Some (B ++ [BoxList (match m with [] => false | _ => true end) l], GivesNew 1)).

(** The keys a call looks at: its arguments', and those in its container. *)
Definition call_keys (h : heap) (B : list box) (c : box_call) (k : value) : Prop :=
  match c with
  | QDict args => exists l, to_pairs args = Some l /\ In k (map fst l)
  | QPut v q _ | QExists v q | QGet v q | QRemove v q => k = q
  | _ => False
  end \/
  match c with
  | QPut v _ _ | QExists v _ | QGet v _ | QRemove v _ | QClear v =>
      exists i m, owns h v i 3 /\ nth_error B i = Some (BoxMap m) /\ In k (map fst m)
  | _ => False
  end.

(** What happened to thread [t]: [t'] has containers' memory [w'] and, if the
    reply is a new container, one new object for the newest of [n] of them. *)
Definition replied (t : thread store) (r : reply) (n : nat) (w' : store) (v : value) (t' : thread store) : Prop :=
  match r with
  | Gives x => v = x /\ t' = with_host t w'
  | GivesNew p => v = VNative (t_next t) /\ t' = snd (alloc (with_host t w') (BNative (Z.of_nat n) p))
  end.

(** [R] relates the containers' memory to what is in them: at the beginning
    there are none; whatever the program does in between (the thread [t] of a
    call is arbitrary but for its containers' memory), every call the library
    supports replies, or aborts, as the lists and maps do, as long as the objects
    used as keys keep the contents they have in [h0]; and the collector is shown
    exactly what the containers hold. *)
Record faithful_to (M : machine store) (place : nat -> Z) (h0 : heap) (R : store -> list box -> Prop) : Prop := {
  ft_start : R [] [];
  ft_call : forall w B t c r0, R w B -> t_host t = w -> 0 <= t_pc t -> int_ok c ->
    (forall k, call_keys (t_heap t) B c k -> same_content h0 (t_heap t) k) ->
    answers (t_heap t) B c r0 ->
    exists r, answers (t_heap t) B c r /\
    match r with
    | Some (B', rep) => exists w' v t', returns M (the_function place c) (the_arguments c) t v t' /\
        replied t rep (length B') w' v t' /\ R w' B'
    | None => aborts M (the_function place c) (the_arguments c) t
    end;
  ft_shown : forall w B i b, R w B -> nth_error B i = Some b ->
    match b with
    | BoxList _ l => n_children lib_natives 1 w (Z.of_nat (S i)) = l
    | BoxMap m => Permutation (n_children lib_natives 3 w (Z.of_nat (S i))) (flat_map (fun e => [fst e; snd e]) m)
    end
}.
