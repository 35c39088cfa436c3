(** * SerdeAlloc: reading a [Value] out of a document, with the room reserved for lists of values.

    [Value::deserialize] (deserialize.rs:40-48) reserves room for as many items as the format announces
    ([Vec::with_capacity(seq.size_hint().unwrap_or(0))], deserialize.rs:194, 205, bitvec_helpers.rs:91).  The model of Serde.v has no size
    hints; here documents announce sizes, can end too early, and every reservation is logged. *)
From Verif Require Import Base Value Scale Serde.

(** A document as a format delivers it piece by piece.  A list or map comes with the size hints its [SeqAccess]/[MapAccess] gives (for a map:
    before anything was read and after the first key was read); it ends properly or with an error of the format after the given items. *)
Inductive sdoc : Type :=
| DLeaf (d : doc)                                                                     (* anything delivered without size hints *)
| DList (hint : option N) (l : list sdoc) (ends : bool)
| DMap (hint hint' : option N) (l : list (str * sdoc)) (ends : bool)
| DSome (d : sdoc)
| DEnum (n : str) (d : sdoc)
| DBroken.                                                                            (* the format reports an error instead of a document *)

Inductive serr : Type := EReader (e : derr) | EFormat.

(** Capacities reserved so far, in order, and the result. *)
Definition logged (A : Type) : Type := list N * result A serr.
Definition lret {A} (x : A) : logged A := ([], Ok x).
Definition lfail {A} (e : serr) : logged A := ([], Err e).
Definition lbind {A B} (r : logged A) (k : A -> logged B) : logged B :=
  match snd r with
  | Ok x => let q := k x in (fst r ++ fst q, snd q)
  | Err e => (fst r, Err e)
  end.
Definition lift {A} (r : result A derr) : logged A := ([], match r with Ok x => Ok x | Err e => Err (EReader e) end).
(** [Vec::with_capacity(hint.unwrap_or(0))]. *)
Definition reserve (hint : option N) : logged unit := ([match hint with Some n => n | None => 0%N end], Ok tt).

(** [while let Some(x) = next()? { push(x) }]. *)
Section Items.
  Context {A B : Type} (f : A -> logged B).
  Fixpoint read_items (l : list A) (ends : bool) : logged (list B) :=
    match l with
    | [] => if ends then lret [] else lfail EFormat
    | x :: l' => lbind (f x) (fun v => lbind (read_items l' ends) (fun vs => lret (v :: vs)))
    end.
End Items.

Section Reader.
  Context (rec : sdoc -> logged (value unit)).
  Definition read_entry (kv : str * sdoc) : logged (str * value unit) := lbind (rec (snd kv)) (fun v => lret (fst kv, v)).
  (** [Composite::deserialize] with [CompositeVisitor], deserialize.rs:68-75, 161-211. *)
  Definition read_fields (d : sdoc) : logged (composite (value unit)) :=
    match d with
    | DList hint l ends => lbind (reserve hint) (fun _ => lbind (read_items rec l ends) (fun vs => lret (Unnamed vs)))      (* 190-199 *)
    | DMap hint _ l ends => lbind (reserve hint) (fun _ => lbind (read_items read_entry l ends) (fun vs => lret (Named vs))) (* 201-210 *)
    | DLeaf x => lift (de_composite (SrcDoc (T := unit) x))
    | DBroken => lfail EFormat
    | DSome _ | DEnum _ _ => lfail (EReader DType)
    end.
End Reader.

(** An item of [Vec<bool>] (serde's own reader; it reserves room for bools with a limit of its own, which is not logged). *)
Definition read_bool (d : sdoc) : logged bool :=
  match d with
  | DLeaf x => lift (de_bool (SrcDoc (T := unit) x))
  | DBroken => lfail EFormat
  | _ => lfail (EReader DType)
  end.
Definition read_bools (d : sdoc) : logged (list bool) :=
  match d with
  | DList _ l ends => read_items read_bool l ends
  | DLeaf x => lift (bind (deserialize (SrcDoc (T := unit) x) HSeq) (visit_vec (@de_bool unit)))
  | DBroken => lfail EFormat
  | _ => lfail (EReader DType)
  end.

(** [Value::deserialize] with [ValueDefVisitor], deserialize.rs:40-48, 307-380. *)
Fixpoint read_value (d : sdoc) : logged (value unit) :=
  match d with
  | DLeaf x => lift (de_value (SrcDoc (T := unit) x))
  | DList _ _ _ => lbind (read_fields read_value d) (fun c => lret (Val (DComposite c) tt))                               (* 359-364 *)
  | DMap _ hint' l ends =>                                                                                               (* bitvec_helpers.rs:65-99 *)
      match l with
      | [] => if ends then lret (Val (DComposite (Named [])) tt) else lfail EFormat
      | (k, x) :: l' =>
          if str_eqb k bitvec_key then lbind (read_bools x) (fun b => lret (Val (DBits b) tt))
          else lbind (reserve hint') (fun _ => lbind (read_value x) (fun v =>
               lbind (read_items (read_entry read_value) l' ends) (fun vs => lret (Val (DComposite (Named ((k, v) :: vs))) tt))))
      end
  | DSome x => lbind (read_value x) (fun v => lret (Val (DVariant (s2l "Some") (Unnamed [v])) tt))                        (* 237-245 *)
  | DEnum n x => lbind (read_fields read_value x) (fun c => lret (Val (DVariant n c) tt))                                 (* 222-235 *)
  | DBroken => lfail EFormat
  end.

(** What the deserializers of the crate announce (deserializer.rs:413-425, 569-574, 598-603; serde's [SeqDeserializer] and [MapDeserializer] over a
    vector know how many items are left; bits: bitvec_helpers.rs:46-49). *)
Definition offer_composite {T} (offer : value T -> sdoc) (c : composite (value T)) : sdoc :=
  match c with
  | Named l => let n := N.of_nat (length l) in DMap (Some n) (Some (n - 1)%N) (map (fun kv => match kv with (k, v) => (k, offer v) end) l) true
  | Unnamed l => DList (Some (N.of_nat (length l))) (map offer l) true
  end.
Fixpoint offer {T} (v : value T) : sdoc :=
  match v with
  | Val d _ =>
      match d with
      | DComposite c => offer_composite offer c
      | DVariant n c => DEnum n (offer_composite offer c)
      | DBits b => DMap (Some 1%N) (Some 0%N) [(bitvec_key, DList (Some (N.of_nat (length b))) (map (fun x => DLeaf (FBool x)) b) true)] true
      | DPrim p =>
          DLeaf (match p with
                 | PBool b => FBool b
                 | PChar c => FChar c
                 | PString s => FStr s
                 | PU128 n => FInt false 128 (Z.of_N n)
                 | PI128 z => FInt true 128 z
                 | PU256 b | PI256 b => FBytes b
                 end)
      end
  end.
