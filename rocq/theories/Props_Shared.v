(** * Props_Shared: C01 (closures whose clones share something) *)
From Coq Require Import Sorting.Sorted.
From Verif Require Import Base Value Spec_Value ValueFacts MapShared Spec_Shared SharedFacts.

(** The closure is called exactly once for every value in the tree, in the order of the text, whatever it does: nothing
    else touches what its clones share, the call for a value gets the context of that value and its answer is the
    context of the value at the same place of the result; what the closure owns is what the call for the value around it
    left behind. *)
Theorem C01_calls_in_order : forall (S G T U : Type) (f : S -> G -> T -> U * S * G) (s : S) (v : value T) (g : G) w g',
  map_shared f s v g = (w, g') ->
  same_shape v w /\
  exists calls : list (call S G T U),
    (forall p, In p (map place calls) <-> node_at v p <> None) /\
    StronglySorted comes_before (map place calls) /\
    handed_on g calls g' /\
    forall c, In c calls ->
      f (own c) (shared c) (arg c) = (answer c, own_after c, shared_after c) /\
      option_map ctx_of (node_at v (place c)) = Some (arg c) /\
      option_map ctx_of (node_at w (place c)) = Some (answer c) /\
      (place c = [] -> own c = s) /\
      (forall c' i, In c' calls -> place c = place c' ++ [i] -> own c = own_after c').
Proof.
  intros S G T U f s v g w g' H. destruct (calls_of f v s g) as (cs & H1 & H2 & H3 & H4). pose proof (shape_turn f v s g) as H5.
  rewrite H in *. split; [exact H5|]. exists cs. repeat split; try assumption; try apply H2; try apply H4; assumption.
Qed.
Print Assumptions C01_calls_in_order.

(** Closures that share nothing: the model above. *)
Theorem C01_nothing_shared : forall (S T U : Type) (f : S -> T -> U * S) (s : S) (v : value T),
  map_shared (fun s (_ : unit) t => (f s t, tt)) s v tt = (map_context f s v, tt).
Proof. intros. apply map_shared_alone. Qed.
Print Assumptions C01_nothing_shared.

(** A shared counter numbers the values in the order of the text; the counter of C01_example, which the clones copy, does not. *)
Example C01_shared_counter :
  let leaf := Val (DPrim (PBool true)) tt in
  map_shared (fun (_ : unit) (n : nat) (_ : unit) => (n, tt, Datatypes.S n)) tt
    (Val (DComposite (Unnamed [leaf; Val (DVariant (s2l "A") (Named [(s2l "x", leaf)])) tt; leaf])) tt) 0
  = (Val (DComposite (Unnamed [Val (DPrim (PBool true)) 1;
        Val (DVariant (s2l "A") (Named [(s2l "x", Val (DPrim (PBool true)) 3)])) 2; Val (DPrim (PBool true)) 4])) 0, 5).
Proof. reflexivity. Qed.
