(** Specification of the event order of link speed estimation. It mentions nothing of the model. *)
From Coq Require Import List NArith Bool.
Import ListNotations.

(** A link is followed by its traces. A group is a link with the traces recorded on it. *)
Section Groups.
  Context {L T : Type} (lid : L -> N) (tid : T -> N).

  Definition links_of (gs : list (L * list T)) : list L := map fst gs.
  Definition traces_of (gs : list (L * list T)) : list T := concat (map snd gs).
  (** the events a consumer expects: every link, directly followed by its own traces in their order *)
  Definition expected (gs : list (L * list T)) : list (L + T) :=
    flat_map (fun g => inl (fst g) :: map inr (snd g)) gs.

  (** every trace belongs to the link of its group *)
  Definition grouped (gs : list (L * list T)) : Prop := forall l ts t, In (l, ts) gs -> In t ts -> tid t = lid l.
  (** no two of these links have the same id *)
  Definition distinct (ls : list L) : Prop := NoDup (map lid ls).
End Groups.

(** What a consumer of an iterator sees, for a [next] that can panic (None), end (Some None) or deliver an item. *)
Section Iter.
  Context {S E : Type} (next : S -> option (option E * S)).
  Inductive yields : S -> list E -> Prop :=
  | ye_end : forall s s', next s = Some (None, s') -> yields s []
  | ye_item : forall s e s' l, next s = Some (Some e, s') -> yields s' l -> yields s (e :: l).
  Inductive panics_after : S -> list E -> Prop :=
  | pa_now : forall s, next s = None -> panics_after s []
  | pa_item : forall s e s' l, next s = Some (Some e, s') -> panics_after s' l -> panics_after s (e :: l).
End Iter.
