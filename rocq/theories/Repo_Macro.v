(** * Repo_Macro: the unit test of /repo/src/macros.rs:332-374 run on the model, with the demonstration parser of MacroDemo.v.
    Tests of the model, not properties. *)
From Verif Require Import Base Value Macro MacroDemo.
Open Scope N_scope.

(** The literals of the test by number; [true], [false] and variables are identifiers. *)
Definition literals : list rust :=
  [RInt 32 1; RInt 64 122193223; RUint 64 89; RChar 104; RString (s2l "Hello"); RString (s2l "nice"); RChar 116; RInt 32 3; RString (s2l "tea"); RInt 32 123;
   RString (s2l "string key"); RString (s2l "berry"); RInt 32 34].
Definition env (s : str) : rust :=
  if str_eqb s (s2l "true") then RBool true
  else if str_eqb s (s2l "false") then RBool false
  else if str_eqb s (s2l "s") then RString (s2l "Hello")
  else if str_eqb s (s2l "unnamed_composite") then RValue (unnamed_composite [vi128 1; vstring (s2l "nice"); vchar 116])
  else if str_eqb s (s2l "named_composite") then RValue (named_composite [(s2l "num", vi128 3); (s2l "item", vstring (s2l "tea"))])
  else RValue (named_variant (s2l "V2") [(s2l "num", vi128 3); (s2l "item", vstring (s2l "tea"))]).
Definition literal (n : N) : rust := nth (N.to_nat (n - 2)) literals (RBool false).
Definition eval (e : list tok) : value unit :=
  match e with
  | [TOther n] => value_from (literal n)
  | [TOther 0; TOther n] => match literal n with RInt w z => value_from (RInt w (- z)) | r => value_from r end
  | [TIdent s] => value_from (env s)
  | _ => vbool false
  end.
(** A key that is a string literal is taken without its quotes; an identifier as it is. *)
Definition key (e : list tok) : str :=
  match e with [TIdent s] => s | [TOther n] => match literal n with RString s => s | _ => [] end | _ => [] end.
Definition expands (ts : list tok) (v : value unit) : Prop := expand dP eval key 9 ts = Some v.
Definition id (s : string) : tok := TIdent (s2l s).

Example macro_tests :
  (* primitives *)
  expands [lit 0] (value_from (RInt 32 1)) /\ expands [t_minus; lit 1] (value_from (RInt 64 (-122193223))) /\ expands [lit 2] (value_from (RUint 64 89)) /\
  expands [id "false"] (vbool false) /\ expands [id "true"] (vbool true) /\ expands [lit 3] (vchar 104) /\ expands [lit 4] (vstring (s2l "Hello")) /\ expands [id "s"] (vstring (s2l "Hello")) /\
  (* unnamed composites *)
  expands [TGroup Paren [lit 0; TComma; lit 5; TComma; lit 6]] (unnamed_composite [vi128 1; vstring (s2l "nice"); vchar 116]) /\
  expands [TGroup Paren [lit 0; TComma; lit 5; TComma; lit 6; TComma]] (unnamed_composite [vi128 1; vstring (s2l "nice"); vchar 116]) /\
  expands [TGroup Paren []] (unnamed_composite []) /\
  (* named composites *)
  expands [TGroup Brace [id "num"; TColon; lit 7; TComma; id "item"; TColon; lit 8]] (named_composite [(s2l "num", vi128 3); (s2l "item", vstring (s2l "tea"))]) /\
  expands [TGroup Brace [id "num"; TColon; lit 7; TComma; id "item"; TColon; lit 8; TComma]] (named_composite [(s2l "num", vi128 3); (s2l "item", vstring (s2l "tea"))]) /\
  (* variants *)
  expands [id "v1"; TGroup Paren []] (unnamed_variant (s2l "v1") []) /\
  expands [id "V2"; TGroup Brace [id "num"; TColon; lit 7; TComma; id "item"; TColon; lit 8]] (named_variant (s2l "V2") [(s2l "num", vi128 3); (s2l "item", vstring (s2l "tea"))]) /\
  (* string literal as key *)
  expands [TGroup Brace [lit 10; TColon; lit 9]] (named_composite [(s2l "string key", vi128 123)]) /\
  (* the wild combination *)
  expands [TGroup Brace [id "unnamed"; TColon; id "unnamed_composite"; TComma; id "vals"; TColon;
      TGroup Paren [id "v1"; TGroup Brace [id "name"; TColon; lit 11; TComma; id "age"; TColon; lit 12]; TComma; id "named_variant"]; TComma; id "named"; TColon; id "named_composite"]]
    (named_composite [(s2l "unnamed", value_from (env (s2l "unnamed_composite")));
      (s2l "vals", unnamed_composite [named_variant (s2l "v1") [(s2l "name", vstring (s2l "berry")); (s2l "age", vi128 34)]; value_from (env (s2l "named_variant"))]);
      (s2l "named", value_from (env (s2l "named_composite")))]).
Proof. repeat split; vm_compute; reflexivity. Qed.
