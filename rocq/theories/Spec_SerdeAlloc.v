(** * Spec_SerdeAlloc: vocabulary of C87. *)
From Verif Require Import Base Value Serde SerdeAlloc.
Local Open Scope N_scope.

(** [delivers d x]: [d] delivers all of the document [x], whatever sizes it announces. *)
Inductive delivers : sdoc -> doc -> Prop :=
| DV_leaf x : delivers (DLeaf x) x
| DV_list h l l' : Forall2 delivers l l' -> delivers (DList h l true) (FSeq l')
| DV_map h h' l l' : Forall2 (fun a b => fst a = fst b /\ delivers (snd a) (snd b)) l l' -> delivers (DMap h h' l true) (FMap l')
| DV_some d x : delivers d x -> delivers (DSome d) (FSome x)
| DV_enum n d x : delivers d x -> delivers (DEnum n d) (FEnum n (Some x)).

(** [p] is a piece of [d] (possibly all of it). *)
Inductive piece (p : sdoc) : sdoc -> Prop :=
| PC_self : piece p p
| PC_list h l e x : In x l -> piece p x -> piece p (DList h l e)
| PC_map h h' l e k x : In (k, x) l -> piece p x -> piece p (DMap h h' l e)
| PC_some d : piece p d -> piece p (DSome d)
| PC_enum n d : piece p d -> piece p (DEnum n d).

(** The format reports an error somewhere. *)
Definition cut (d : sdoc) : Prop :=
  piece DBroken d \/ (exists h l, piece (DList h l false) d) \/ (exists h h' l, piece (DMap h h' l false) d).

(** No list or map announces more items than it delivers. *)
Definition honest (d : sdoc) : Prop :=
  (forall n l e, piece (DList (Some n) l e) d -> n <= N.of_nat (length l)) /\
  (forall n h' l e, piece (DMap (Some n) h' l e) d -> n <= N.of_nat (length l)) /\
  (forall h n l e, piece (DMap h (Some n) l e) d -> n <= N.of_nat (length l)).

(** [n] is announced somewhere. *)
Definition announced (n : N) (d : sdoc) : Prop :=
  (exists l e, piece (DList (Some n) l e) d) \/ (exists h' l e, piece (DMap (Some n) h' l e) d) \/ (exists h l e, piece (DMap h (Some n) l e) d).

(** The items of lists and entries of maps there are, at any depth. *)
Definition nsum (l : list N) : N := fold_right N.add 0 l.
Fixpoint items (d : sdoc) : N :=
  match d with
  | DList _ l _ => nsum (map (fun x => 1 + items x) l)
  | DMap _ _ l _ => nsum (map (fun kv => match kv with (_, x) => 1 + items x end) l)
  | DSome x | DEnum _ x => items x
  | DLeaf _ | DBroken => 0
  end.

(** Room reserved altogether. *)
Definition reserved (d : sdoc) : N := nsum (fst (read_value d)).
