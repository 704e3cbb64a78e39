(** Abstract priority queue: at most one element per index.
    Independent of the model: mentions only the element type, the index function and the order. *)
From Verif Require Import Base.

Section PQ.
  Variable T : Type.
  Variable idx : T -> nat.          (** Indexing::as_index *)
  Variable ltb : T -> T -> bool.    (** Ord: a < b *)

  Definition content := nat -> option T.

  Inductive pq_op :=
  | Push (x : T) | PushUnlessContained (x : T) | Pop | Peek
  | UpdateKey (x : T) | DecreaseKey (x : T) | IncreaseKey (x : T)
  | Clear | Drain | Contains (i : nat) | Get (i : nat) | Len.

  Inductive pq_out := OUnit | OElem (o : option T) | OBool (b : bool) | ONat (n : nat) | OList (l : list T).

  Definition put (m : content) (x : T) : content := fun i => if i =? idx x then Some x else m i.
  Definition del (m : content) (i : nat) : content := fun j => if j =? i then None else m j.
  Definition empty : content := fun _ => None.

  (** [l] lists exactly the elements of [m]. *)
  Definition enumerates (m : content) (l : list T) : Prop :=
    NoDup (map idx l) /\ forall i x, m i = Some x <-> In x l /\ idx x = i.

  (** [x] is stored and no stored element is smaller. *)
  Definition is_min (m : content) (x : T) : Prop :=
    m (idx x) = Some x /\ forall i y, m i = Some y -> ltb y x = false.

  (** What may be called when (everything else is outside the contract). *)
  Definition legal (n : nat) (m : content) (op : pq_op) : Prop :=
    match op with
    | Push x => idx x < n /\ m (idx x) = None
    | PushUnlessContained x => idx x < n
    | UpdateKey x => exists y, m (idx x) = Some y
    | DecreaseKey x => exists y, m (idx x) = Some y /\ ltb y x = false
    | IncreaseKey x => exists y, m (idx x) = Some y /\ ltb x y = false
    | Contains i | Get i => i < n
    | Pop | Peek | Clear | Drain | Len => True
    end.

  (** Allowed outcome of each operation. *)
  Definition pq_step (m : content) (op : pq_op) (o : pq_out) (m' : content) : Prop :=
    match op with
    | Push x => o = OUnit /\ forall i, m' i = put m x i
    | PushUnlessContained x =>
        o = OUnit /\ match m (idx x) with None => forall i, m' i = put m x i | Some _ => forall i, m' i = m i end
    (** [update_key] with an element that compares equal keeps the stored one *)
    | UpdateKey x =>
        o = OUnit /\ exists y, m (idx x) = Some y /\
          if ltb x y || ltb y x then forall i, m' i = put m x i else forall i, m' i = m i
    | DecreaseKey x | IncreaseKey x => o = OUnit /\ forall i, m' i = put m x i
    | Pop =>
        (o = OElem None /\ (forall i, m i = None) /\ forall i, m' i = None) \/
        exists x, o = OElem (Some x) /\ is_min m x /\ forall i, m' i = del m (idx x) i
    | Peek =>
        (forall i, m' i = m i) /\
        ((o = OElem None /\ forall i, m i = None) \/ exists x, o = OElem (Some x) /\ is_min m x)
    | Clear => o = OUnit /\ forall i, m' i = None
    | Drain => (exists l, o = OList l /\ enumerates m l) /\ forall i, m' i = None
    | Contains i => o = OBool (match m i with Some _ => true | None => false end) /\ forall j, m' j = m j
    | Get i => o = OElem (m i) /\ forall j, m' j = m j
    | Len => (exists l, o = ONat (length l) /\ enumerates m l) /\ forall j, m' j = m j
    end.

  (** An implementation (state type [H], one API call [step], [None] = panic) behaves like the abstract queue
      with content [m] on the call sequence [ops]: as long as the calls are legal none panics and every answer
      is one the abstract queue allows. *)
  Fixpoint conforms {H : Type} (step : H -> pq_op -> option (H * pq_out)) (n : nat) (m : content) (h : H) (ops : list pq_op) : Prop :=
    match ops with
    | [] => True
    | op :: ops' =>
        legal n m op ->
        exists h' o m', step h op = Some (h', o) /\ pq_step m op o m' /\ conforms step n m' h' ops'
    end.
End PQ.

(** Order laws required of [ltb] (Rust's Ord contract): [a <= b] is [ltb b a = false]. *)
Record order_laws {T} (ltb : T -> T -> bool) : Prop := {
  ol_irrefl : forall a, ltb a a = false;
  ol_asym : forall a b, ltb a b = true -> ltb b a = false;
  ol_trans : forall a b c, ltb b a = false -> ltb c b = false -> ltb c a = false }.
Arguments Push {T}. Arguments PushUnlessContained {T}. Arguments Pop {T}. Arguments Peek {T}.
Arguments UpdateKey {T}. Arguments DecreaseKey {T}. Arguments IncreaseKey {T}. Arguments Clear {T}.
Arguments Drain {T}. Arguments Contains {T}. Arguments Get {T}. Arguments Len {T}.
Arguments OUnit {T}. Arguments OElem {T}. Arguments OBool {T}. Arguments ONat {T}. Arguments OList {T}.
