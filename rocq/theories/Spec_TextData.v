(** * Spec_TextData: vocabulary of C68, Rust data as text. *)
From Verif Require Import Base Value Chars Spec_Fmt Serde.

(** Types without [Value], [Composite], [Variant], [Primitive] inside. *)
Fixpoint no_values (t : ty) : Prop :=
  match t with
  | TyOption t' | TyVec t' | TyMap t' | TyMapChar t' | TyNewtype t' => no_values t'
  | TyTuple ts | TyTupleStruct ts => fold_right (fun t' P => no_values t' /\ P) True ts
  | TyStruct fs => fold_right (fun ft P => match ft with (_, t') => no_values t' end /\ P) True fs
  | TyEnum vs =>
      fold_right (fun nb P => match nb with (_, b) =>
        match b with
        | VsUnit => True
        | VsNewtype t' => no_values t'
        | VsTuple ts => fold_right (fun t' P => no_values t' /\ P) True ts
        | VsStruct fs => fold_right (fun ft P => match ft with (_, t') => no_values t' end /\ P) True fs
        end end /\ P) True vs
  | TyValue | TyComposite | TyVariant | TyPrim => False
  | _ => True
  end.

(** Chars are Unicode scalar values, as in Rust, and no enum variant has a name like [trueish] that would be written without quotes. *)
Fixpoint sayable (bare : str -> bool) (d : data) : Prop :=
  match d with
  | XChar c => is_scalar c = true
  | XString s => forallb is_scalar s = true
  | XSome x | XNewtype x => sayable bare x
  | XVec l | XTuple l | XTupleStruct l => fold_right (fun x P => sayable bare x /\ P) True l
  | XMap l => fold_right (fun (kx : str * data) P => (let (k, x) := kx in forallb is_scalar k = true /\ sayable bare x) /\ P) True l
  | XStruct l => fold_right (fun (kx : str * data) P => (let (k, x) := kx in sayable bare x) /\ P) True l
  | XEnum n b =>
      bare n && bool_like n = false /\
      match b with
      | VsUnit => True
      | VsNewtype x => sayable bare x
      | VsTuple l => fold_right (fun x P => sayable bare x /\ P) True l
      | VsStruct l => fold_right (fun (kx : str * data) P => (let (k, x) := kx in sayable bare x) /\ P) True l
      end
  | _ => True
  end.
