(** * SerdeContent: serde's buffered reading (untagged, internally and adjacently tagged enums, flattened structs) with a
    value of this crate as the deserializer.

    The buffering itself is serde's: [Content], [ContentVisitor] and the code [derive] generates for the attributes are
    modelled after serde 1.x, from its documented behaviour.  What is of this crate is the event every part of a value
    sends when it is asked for anything ([deserialize_any], deserializer.rs:218-228, 413-425, 598-603, 748-761), in
    particular [visit_u128]/[visit_i128] for every integer and [visit_enum] for every variant. *)
From Verif Require Import Base Value Serde SerdeFacts.

(** serde's [Content].  It has no 128-bit integers. *)
Inductive content : Type :=
| KBool (b : bool)
| KInt (sg : bool) (w : N) (z : Z)
| KChar (c : char)
| KString (s : str)
| KBytes (b : bytes)
| KNone
| KSome (k : content)
| KUnit
| KSeq (l : list content)
| KMap (l : list (str * content))
| KFloat.

(** serde's [ContentVisitor]: no [visit_u128]/[visit_i128], and [visit_enum] is an error. *)
Section Buffer.
  Context {T : Type}.
  Fixpoint buffer_f (fuel : nat) (s : source T) : result content derr :=
    match fuel with
    | O => Err DHang
    | S f =>
        bind (deserialize s HAny) (fun e =>
        match e with
        | VBool b => Ok (KBool b)
        | VInt sg w z => if (w =? 128)%N then Err DType else Ok (KInt sg w z)
        | VChar c => Ok (KChar c)
        | VString s => Ok (KString s)
        | VBytes b => Ok (KBytes b)
        | VNone => Ok KNone
        | VSome s' => rmap KSome (buffer_f f s')
        | VUnit => Ok KUnit
        | VSeq _ l => rmap KSeq (mapM (buffer_f f) l)
        | VMap l => rmap KMap (mapM (fun kv => rmap (pair (fst kv)) (buffer_f f (snd kv))) l)
        | VEnum _ _ | VEnumOf _ _ => Err DCustom
        | VFloat => Ok KFloat
        end)
    end.
  Definition buffer (s : source T) : result content derr := buffer_f (S (src_size s)) s.

  (** ** The derived code *)
  Section Derived.
    Context {A : Type}.

    (** [#[serde(untagged)]]: buffer everything, then the first variant that can be read from the buffer. *)
    Fixpoint first_that_reads (alts : list (content -> result A derr)) (k : content) : result A derr :=
      match alts with
      | [] => Err DCustom
      | f :: alts' => match f k with Ok x => Ok x | Err _ => first_that_reads alts' k end
      end.
    Definition de_untagged (alts : list (content -> result A derr)) (s : source T) : result A derr :=
      bind (buffer s) (first_that_reads alts).

    (** [#[serde(tag = "..")]]: from a map, the tag is read as a string, everything else is buffered; from a sequence, the
        tag is the first element.  [body] reads the variant chosen by the tag out of the buffer. *)
    Fixpoint split_tag (tag : str) (l : list (str * source T)) (found : option str) (rest : list (str * content))
        : result (option str * list (str * content)) derr :=
      match l with
      | [] => Ok (found, rest)
      | (k, s) :: l' =>
          if str_eqb k tag then
            match found with
            | Some _ => Err DDuplicate
            | None => bind (de_string s) (fun n => split_tag tag l' (Some n) rest)
            end
          else bind (buffer s) (fun c => split_tag tag l' found (rest ++ [(k, c)]))
      end.
    Definition de_internally_tagged (tag : str) (body : str -> content -> result A derr) (s : source T) : result A derr :=
      bind (deserialize s HAny) (fun e =>
      match e with
      | VMap l => bind (split_tag tag l None []) (fun r => match r with (Some n, rest) => body n (KMap rest) | (None, _) => Err DMissing end)
      | VSeq _ (s0 :: l) => bind (de_string s0) (fun n => bind (mapM buffer l) (fun ks => body n (KSeq ks)))
      | VSeq _ [] => Err DMissing
      | _ => Err DType
      end).

    (** [#[serde(tag = "..", content = "..")]]: if the tag comes first the content is read directly, otherwise it is
        buffered until the tag is known; other entries are ignored, and the first two elements of a sequence are the tag
        and the content.  [read_tag] reads the tag (serde up to 1.0.180 asks for an identifier, later versions for an enum);
        [absent] is the variant if there is a tag and no content. *)
    Fixpoint next_relevant (tag cont : str) (l : list (str * source T)) : result (option (bool * source T * list (str * source T))) derr :=
      match l with
      | [] => Ok None
      | (k, s) :: l' =>
          if str_eqb k tag then Ok (Some (true, s, l'))
          else if str_eqb k cont then Ok (Some (false, s, l'))
          else bind (de_ignored s) (fun _ => next_relevant tag cont l')
      end.
    Definition at_end (tag cont : str) (l : list (str * source T)) (x : A) : result A derr :=
      bind (next_relevant tag cont l) (fun r => match r with None => Ok x | Some _ => Err DDuplicate end).
    Definition de_adjacently_tagged (read_tag : source T -> result str derr) (tag cont : str)
        (direct : str -> source T -> result A derr) (buffered : str -> content -> result A derr) (absent : str -> result A derr)
        (s : source T) : result A derr :=
      bind (deserialize s HStruct) (fun e =>
      match e with
      | VMap l =>
          bind (next_relevant tag cont l) (fun r =>
          match r with
          | None => Err DMissing
          | Some (true, s1, l1) =>
              bind (read_tag s1) (fun n => bind (next_relevant tag cont l1) (fun r2 =>
              match r2 with
              | None => absent n
              | Some (true, _, _) => Err DDuplicate
              | Some (false, s2, l2) => bind (direct n s2) (at_end tag cont l2)
              end))
          | Some (false, s1, l1) =>
              bind (buffer s1) (fun c => bind (next_relevant tag cont l1) (fun r2 =>
              match r2 with
              | None => Err DMissing
              | Some (false, _, _) => Err DDuplicate
              | Some (true, s2, l2) => bind (read_tag s2) (fun n => bind (buffered n c) (at_end tag cont l2))
              end))
          end)
      | VSeq strict (s1 :: s2 :: l) =>
          bind (read_tag s1) (fun n => bind (direct n s2) (fun x => if strict && negb (Nat.eqb (length l) 0) then Err DLength else Ok x))
      | VSeq _ _ => Err DLength
      | _ => Err DType
      end).

    (** [#[serde(flatten)]]: a struct with a flattened field is read as a map; the entries of its own fields are read
        directly, all the others are buffered for the flattened field. *)
    Fixpoint split_flat (own : list (str * (source T -> result data derr))) (l : list (str * source T)) (acc : list (str * data)) (rest : list (str * content))
        : result (list (str * data) * list (str * content)) derr :=
      match l with
      | [] => Ok (acc, rest)
      | (k, s) :: l' =>
          match find_field k own with
          | Some f =>
              match find_field k acc with
              | Some _ => Err DDuplicate
              | None => bind (f s) (fun x => split_flat own l' (acc ++ [(k, x)]) rest)
              end
          | None => bind (buffer s) (fun c => split_flat own l' acc (rest ++ [(k, c)]))
          end
      end.
    Definition de_flattened (own : list (str * (source T -> result data derr))) (finish : list (str * data) -> list (str * content) -> result A derr)
        (s : source T) : result A derr :=
      bind (deserialize s HMap) (fun e =>
      match e with
      | VMap l => bind (split_flat own l [] []) (fun r => finish (fst r) (snd r))
      | _ => Err DType
      end).
  End Derived.
End Buffer.
