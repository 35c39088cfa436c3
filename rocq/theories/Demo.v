(** * Demo: a small registry used only by the examples beside the theorems. *)
From Verif Require Import Base Value Registry.
Open Scope N_scope.

Definition nm (s : string) : option (list N) := Some (s2l s).
Definition demo (t : nat) : resolution nat :=
  match t with
  | 0%nat => ResTy (TPrim (PtU W8))
  | 1%nat => ResTy (TPrim (PtU W32))
  | 2%nat => ResTy (TPrim PtBool)
  | 3%nat => ResTy (TPrim PtStr)
  | 4%nat => ResTy (TComposite [(nm "a", 0%nat); (nm "b", 5%nat)])          (* struct { a: u8, b: Vec<u8> } *)
  | 5%nat => ResTy (TSequence 0%nat)                                        (* Vec<u8> *)
  | 6%nat => ResTy (TVariant [VInfo (s2l "A") 0 [(None, 0%nat)]; VInfo (s2l "B") 5 [(nm "x", 2%nat); (nm "y", 5%nat)]])
  | 7%nat => ResTy (TCompact 1%nat)                                         (* Compact<u32> *)
  | 8%nat => ResTy (TArray 0%nat 2)                                         (* [u8; 2] *)
  | 9%nat => ResTy (TTuple [0%nat; 2%nat])                                  (* (u8, bool) *)
  | 10%nat => ResTy (TBitSeq B8 Lsb0)
  | 11%nat => ResTy (TComposite [(None, 13%nat)])                           (* struct W1(Vec<Vec<u8>>) *)
  | 12%nat => ResTy (TComposite [(None, 11%nat)])                           (* struct W2(W1) *)
  | 13%nat => ResTy (TSequence 5%nat)
  | 14%nat => ResTy (TPrim PtI256)
  | 15%nat => ResTy (TComposite [(nm "next", 15%nat)])                      (* struct Loop { next: Loop } *)
  | 16%nat => ResTy (TPrim PtChar)
  | 17%nat => ResTy (TPrim (PtI W16))
  | 18%nat => ResTy (TCompact 19%nat)                                       (* Compact<Id> *)
  | 19%nat => ResTy (TComposite [(nm "id", 1%nat)])                         (* struct Id { id: u32 } *)
  | 20%nat => ResTy (TPrim PtU256)
  | 21%nat => ResTy (TTuple [])                                             (* () *)
  | 22%nat => ResTy (TSequence 21%nat)                                      (* Vec<()> *)
  | 23%nat => ResTy (TComposite [(nm "e", 6%nat); (nm "t", 9%nat)])         (* struct { e: enum, t: (u8, bool) } *)
  | 24%nat => ResTy (TSequence 2%nat)                                       (* Vec<bool> *)
  | 25%nat => ResErr
  | 26%nat => ResTy (TSequence 23%nat)
  | 27%nat => ResTy (TArray 0%nat 1)                                        (* [u8; 1] *)
  | 28%nat => ResTy (TCompact 27%nat)                                       (* Compact<[u8; 1]> (no such Rust type) *)
  | 29%nat => ResTy (TBitSeq B16 Msb0)
  | 30%nat => ResTy (TSequence 6%nat)
  | _ => ResNotFound
  end.
Definition xdemo : ext := Ext true true (2 ^ 28) true.
