(** * What a dict is, to a user: a finite map *)
From Verif Require Import Base Float64 Values ValuesSpec Dict.

(** Keys the library accepts; others abort the program. *)
Definition hashable (h : heap) (k : value) : bool :=
  match k with
  | VBool _ | VInt _ | VStr _ | VCStr _ | VStruct _ => true
  | VNative _ | VLight _ =>
      match to_addr h k with Ok a => negb (a =? 0) | _ => false end
  | VNull | VFloat _ => false
  end.

Definition same_key (h : heap) (a b : value) : bool :=
  match values_equal h a b with Ok true => true | _ => false end.

(** An association list without repeated keys. *)
Definition fmap := list (value * value).

Definition m_get (h : heap) (m : fmap) (k : value) : option value :=
  match find (fun e => same_key h (fst e) k) m with
  | Some e => Some (snd e)
  | None => None
  end.

Definition m_set (h : heap) (m : fmap) (k v : value) : fmap :=
  if existsb (fun e => same_key h (fst e) k) m
  then map (fun e => if same_key h (fst e) k then (fst e, v) else e) m
  else m ++ [(k, v)].

Definition m_remove (h : heap) (m : fmap) (k : value) : fmap :=
  filter (fun e => negb (same_key h (fst e) k)) m.

(** [None] = the program aborts. *)
Definition map_step (h : heap) (m : fmap) (o : dop) : option (fmap * dres) :=
  match o with
  | DSet k v => if hashable h k then Some (m_set h m k v, DUnit) else None
  | DGet k => if hashable h k then
                Some (m, match m_get h m k with Some v => DFound v | None => DAbsent end)
              else None
  | DRemove k => if hashable h k then Some (m_remove h m k, DUnit) else None
  | DClear => Some ([], DUnit)
  end.

Fixpoint map_run (h : heap) (m : fmap) (os : list dop) : option (fmap * list dres) :=
  match os with
  | [] => Some (m, [])
  | o :: os' =>
      match map_step h m o with
      | None => None
      | Some (m1, r) =>
          match map_run h m1 os' with
          | None => None
          | Some (m2, rs) => Some (m2, r :: rs)
          end
      end
  end.

(** The key [k] denotes the same string / native in both heaps. *)
Definition same_content (h h' : heap) (k : value) : Prop :=
  match k with
  | VStr id => exists m m' s, hget h id = Some (mkObj id m (BStr s)) /\
                              hget h' id = Some (mkObj id m' (BStr s))
  | VNative id => exists m m' a p, hget h id = Some (mkObj id m (BNative a p)) /\
                                   hget h' id = Some (mkObj id m' (BNative a p))
  | _ => True
  end.

Definition op_key (o : dop) : option value :=
  match o with DSet k _ | DGet k | DRemove k => Some k | DClear => None end.

(** Throughout the history the objects used as keys stay allocated and keep
    their content, the one they have in [h0]; everything else in the heap may
    change between operations (strings and natives are immutable in Tiny and
    a dict keeps its keys alive). *)
Definition keys_stable (h0 : heap) (os : list (heap * dop)) : Prop :=
  forall h o k h' o', In (h, o) os -> op_key o = Some k -> In (h', o') os ->
    same_content h0 h' k.

(** Every pair of keys of [m] differs. *)
Definition distinct_keys (h : heap) (m : fmap) : Prop :=
  forall i j a b, nth_error m i = Some a -> nth_error m j = Some b ->
    same_key h (fst a) (fst b) = true -> i = j.
