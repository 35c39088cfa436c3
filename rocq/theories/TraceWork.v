(** * TraceWork: the tracing decoder of /repo/src/scale_impls/tracing_decoder/visitor.rs once more, with a count of its work.

    Every function is the one of Trace.v (same lines of visitor.rs) and returns in addition
    - [work]: the calls of [decode_with_visitor] and the depth of recursion, as in DecodeWork.v;
    - [copied]: how many path segments are copied.  [Path] is a [Vec<PathSegment>] and [Path::at] (path.rs:37-41) clones all of it before
      it appends a segment, so every [at_idx], [at_field], [at_variant] at a path of [n] segments copies [n] of them; [path.clone()] at
      visitor.rs:291 copies all segments of its path;
    - [cloned]: how many values are cloned by the [vals.clone()] at visitor.rs:77-80 and 357-360, a value counting with all values in it.
    The loops call [at_idx]/[at_field] before [decode_item] answers that nothing is left (visitor.rs:73, 352), so once more than there are
    items.  Not counted: copies of field names, variant names and type ids (one each per item or error), and growth of vectors. *)
From Verif Require Import Base Value Registry Spec_Scale Scale Decode Trace Spec_Cost DecodeWork.
Open Scope N_scope.

Record twork : Type := TWork { work : dwork; copied : N; cloned : N }.
Definition at_rest : twork := TWork idle 0 0.
(** One after the other. *)
Definition tthen (a b : twork) : twork := TWork (then_ (work a) (work b)) (copied a + copied b) (cloned a + cloned b).
(** [Path::at] on a path of [n] segments, or [clone] of one. *)
Definition copy_path (n : nat) : twork := TWork idle (N.of_nat n) 0.
(** [vals.clone()]. *)
Definition clone_values {T} (vs : list (value T)) : twork := TWork idle 0 (total (map nodes vs)).
(** Inside one more call. *)
Definition within_tcall (a : twork) : twork := TWork (within_call (work a)) (copied a) (cloned a).

(** [with_outer_context] (error.rs:48-70) calls [outer_path] only for an error without a location; one of the other two closures is
    always called, and in both loops both clone [vals]. *)
Definition report {V T} (n : nat) (vals : list (value T)) (e : terr V) : twork :=
  match e with
  | FromDecode _ => tthen (copy_path n) (clone_values vals)
  | FromVisitor _ _ _ => clone_values vals
  end.
(** The same at visitor.rs:288-307: [path.clone()], and no values are cloned. *)
Definition report_variant {V} (n : nat) (e : terr V) : twork :=
  match e with FromDecode _ => copy_path n | FromVisitor _ _ _ => at_rest end.

Section Traced.
  Context {TId : Type} (reg : TId -> resolution TId) (X : ext).
  Definition ktres (A V : Type) : Type := (tres A V * twork)%type.
  (** Neither calls nor copies. *)
  Definition simply {A V} (r : tres A V) : ktres A V := (r, at_rest).

  Section Loops.
    Context (item : list seg -> TId -> bytes -> ktres (value TId) (value TId)).
    Context (path : list seg).
    (** visitor.rs:73-93. *)
    Fixpoint kt_unnamed (idx : nat) (vals : list (value TId)) (ts : list TId) (bs : bytes) : ktres (composite (value TId)) (composite (value TId)) :=
      match ts with
      | [] => (Ok (Unnamed vals, bs), copy_path (length path))
      | t :: ts' =>
          let m := item (path ++ [SIndex idx]) t bs in
          match fst m with
          | Err e => (Err (with_outer (path ++ [SIndex idx]) (Unnamed vals) (fun v => Unnamed (vals ++ [v])) e),
                      tthen (copy_path (length path)) (tthen (snd m) (report (length path) vals e)))
          | Ok (v, bs') =>
              let k := kt_unnamed (S idx) (vals ++ [v]) ts' bs' in
              (fst k, tthen (copy_path (length path)) (tthen (snd m) (snd k)))
          end
      end.
    (** [to_unnamed_composite!], visitor.rs:61-100. *)
    Definition kt_unnamed_composite (remaining : N) (ts : list TId) (bs : bytes) : ktres (composite (value TId)) (composite (value TId)) :=
      if MAX_CAPACITY <? remaining then simply (Err (FromDecode CCapacity)) else kt_unnamed 0 [] ts bs.
    (** visitor.rs:349-375. *)
    Fixpoint kt_named (vals : list (str * value TId)) (fs : list (field TId)) (bs : bytes) : ktres (composite (value TId)) (composite (value TId)) :=
      match fs with
      | [] => (Ok (Named vals, bs), copy_path (length path))
      | (name, t) :: fs' =>
          let n := match name with Some n => n | None => s2l "<unnamed>" end in
          let m := item (path ++ [SField n]) t bs in
          match fst m with
          | Err e => (Err (with_outer (path ++ [SField n]) (Named vals) (fun v => Named (vals ++ [(n, v)])) e),
                      tthen (copy_path (length path)) (tthen (snd m) (report (length path) (map snd vals) e)))
          | Ok (v, bs') =>
              let k := kt_named (vals ++ [(n, v)]) fs' bs' in
              (fst k, tthen (copy_path (length path)) (tthen (snd m) (snd k)))
          end
      end.
    (** [visit_composite], visitor.rs:331-375. *)
    Definition kt_composite (fs : list (field TId)) (bs : bytes) : ktres (composite (value TId)) (composite (value TId)) :=
      if (0 <? length fs)%nat && negb (has_unnamed fs) then kt_named [] fs bs
      else kt_unnamed_composite (N.of_nat (length fs)) (map snd fs) bs.
  End Loops.

  Definition kt_wrap (t : TId) (m : ktres (composite (value TId)) (composite (value TId))) : ktres (value TId) (value TId) :=
    (wrap_composite t (fst m), snd m).

  (** [trace] of Trace.v (visitor.rs:115-328). *)
  Fixpoint ktrace (fuel : nat) (path : list seg) (compact : bool) (t : TId) (bs : bytes) : ktres (value TId) (value TId) :=
    match fuel with
    | O => simply (Err (FromDecode (CDecode EHang)))
    | S f =>
        let (r, n) :=
          match reg t with
          | ResErr => simply (Err (FromDecode (CDecode ETypeResolving)))
          | ResNotFound => simply (Err (FromDecode (CDecode EIdNotFound)))
          | ResTy (TPrim p) => simply (lift (bind (read_prim (x_len X) PI256 compact p bs) (fun x => Ok (Val (DPrim (fst x)) t, snd x))))
          | ResTy (TCompact t') => ktrace f path true t' bs
          | ResTy (TComposite fs) =>
              if compact && negb (length fs =? 1)%nat then simply (Err (FromDecode (CDecode ECannotCompact)))
              else kt_wrap t (kt_composite (fun p => ktrace f p compact) path fs bs)
          | ResTy (TTuple ts) =>
              if compact && negb (length ts =? 1)%nat then simply (Err (FromDecode (CDecode ECannotCompact)))
              else kt_wrap t (kt_unnamed_composite (fun p => ktrace f p compact) path (N.of_nat (length ts)) ts bs)
          (* [at_variant] at visitor.rs:285 *)
          | ResTy (TVariant vs) =>
              if compact then simply (Err (FromDecode (CDecode ECannotCompact)))
              else match bs with
                   | [] => simply (Err (FromDecode (CDecode ENotEnough)))
                   | idx :: bs' =>
                       match find (fun v => vi_index v =? idx) vs with
                       | None => simply (Err (FromDecode (CDecode EVariantNotFound)))
                       | Some v =>
                           let m := kt_composite (fun p => ktrace f p false) path (vi_fields v) bs' in
                           match fst m with
                           | Ok (c, r) => (Ok (Val (DVariant (vi_name v) c) t, r), tthen (copy_path (length path)) (snd m))
                           | Err e => (Err (with_outer (path ++ [SVariant (vi_name v)])
                                                       (Val (DVariant (vi_name v) (Unnamed [])) t)
                                                       (fun c => Val (DVariant (vi_name v) c) t) e),
                                       tthen (copy_path (length path)) (tthen (snd m) (report_variant (S (length path)) e)))
                           end
                       end
                   end
          | ResTy (TSequence t') =>
              if compact then simply (Err (FromDecode (CDecode ECannotCompact)))
              else match compact_decode (x_len X) bs with
                   | Err e => simply (Err (FromDecode (CDecode e)))
                   | Ok (n, r) => kt_wrap t (kt_unnamed_composite (fun p => ktrace f p false) path n (repeat t' (N.to_nat n)) r)
                   end
          | ResTy (TArray t' n) =>
              if compact then simply (Err (FromDecode (CDecode ECannotCompact)))
              else kt_wrap t (kt_unnamed_composite (fun p => ktrace f p false) path n (repeat t' (N.to_nat n)) bs)
          | ResTy (TBitSeq st o) =>
              if compact then simply (Err (FromDecode (CDecode ECannotCompact)))
              else simply (lift (bind (decode_bits (x_maxbits X) st o bs) (fun x => Ok (Val (DBits (fst x)) t, snd x))))
          end in
        (r, within_tcall n)
    end.
End Traced.
