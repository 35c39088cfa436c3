(** * Spec_Calls: vocabulary of C70. *)
From Verif Require Import Base Value Serde SerdeCalls.

(** The field name a map key gives: strings and characters give one, nothing else does. *)
Definition key_text (k : sd) (s : str) : Prop :=
  to_value_sd k = Ok (vstring s) \/ exists c, to_value_sd k = Ok (vchar c) /\ s = [c].

(** After these calls a value would go under the name [s]: the last good key, if no value has been offered since. *)
Definition pending (before : list call) (s : str) : Prop :=
  exists b1 k b2, before = b1 ++ CKey k :: b2 /\ key_text k s /\
    (forall x, ~ In (CValue x) b2) /\ (forall k' s', In (CKey k') b2 -> ~ key_text k' s').

(** The field a call adds, made after the calls [before]. *)
Inductive adds (before : list call) : call -> option (str * value unit) -> Prop :=
| add_key k : adds before (CKey k) None
| add_field k x v : to_value_sd x = Ok v -> adds before (CField k x) (Some (k, v))
| add_field_err k x e : to_value_sd x = Err e -> adds before (CField k x) None
| add_value k x v : pending before k -> to_value_sd x = Ok v -> adds before (CValue x) (Some (k, v))
| add_value_err k x e : pending before k -> to_value_sd x = Err e -> adds before (CValue x) None.

Definition opt_list {A} (o : option A) : list A := match o with Some x => [x] | None => [] end.

(** The fields of the finished value, in the order of the calls. *)
Definition fields_added (calls : list call) (fields : list (str * value unit)) : Prop :=
  exists added : list (option (str * value unit)),
    length added = length calls /\
    (forall i c o, nth_error calls i = Some c -> nth_error added i = Some o -> adds (firstn i calls) c o) /\
    fields = concat (map opt_list added).

(** What each call returns, whatever was called before. *)
Inductive answer : call -> result unit serr -> Prop :=
| ans_field k x v : to_value_sd x = Ok v -> answer (CField k x) (Ok tt)
| ans_field_err k x e : to_value_sd x = Err e -> answer (CField k x) (Err e)
| ans_value x v : to_value_sd x = Ok v -> answer (CValue x) (Ok tt)
| ans_value_err x e : to_value_sd x = Err e -> answer (CValue x) (Err e)
| ans_key k s : key_text k s -> answer (CKey k) (Ok tt)
| ans_key_err k e : to_value_sd k = Err e -> answer (CKey k) (Err e)
| ans_key_bad k v : to_value_sd k = Ok v -> (forall s, ~ key_text k s) -> answer (CKey k) (Err SEMapKeyMustBeStringlike).
