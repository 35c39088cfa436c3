(** * Props_FmtTalk: C98 (sinks, custom formatters and context printers that may do and remember anything) *)
From Coq Require Import Sorting.Sorted.
From Verif Require Import Base Value ValueFacts Chars Spec_Grammar Fmt Spec_Fmt Spec_Value Spec_Shared Spec_Layout Spec_FmtTalk FmtTalkFacts.
Local Open Scope N_scope.

(** [W] is the writer together with everything that formatters, printer and writer remember.  Whatever they do, [write]
    goes by the rules of Spec_FmtTalk. *)
Theorem C98_rules : forall (T W : Type) U (wr : W -> str -> W * bool) (cfg : config T W) st (v : value T) w w' ok,
  write_value U wr cfg st v w = (w', ok) ->
  written (bare_name U) wr (indent_by cfg) (leading_indent cfg) (custom_formatters cfg) (print_context cfg) st v w w' ok.
Proof. intros T W U wr cfg st v w w' ok H. pose proof (write_written U wr cfg st v w) as H'. rewrite H in H'. exact H'. Qed.
Print Assumptions C98_rules.

(** ... and when the writer does not care in how many pieces a text arrives, the rules leave no choice. *)
Theorem C98_rules_suffice : forall (T W : Type) U (wr : W -> str -> W * bool) (cfg : config T W) st (v : value T) w w' ok,
  indifferent wr ->
  written (bare_name U) wr (indent_by cfg) (leading_indent cfg) (custom_formatters cfg) (print_context cfg) st v w w' ok ->
  write_value U wr cfg st v w = (w', ok).
Proof.
  intros T W U wr cfg st v w w' ok Hi H. pose proof (write_written U wr cfg st v w) as H'.
  destruct (proj1 (written_det_both U wr cfg Hi st) _ _ _ _ H _ _ H') as [-> ->]. now destruct (write_value U wr cfg st v w).
Qed.
Print Assumptions C98_rules_suffice.

(** A formatter is asked about exactly the values that are not inside a value it answered for, each once, in the order of
    the text. *)
Theorem C98_questions : forall (T : Type) U ind lead (a : value T -> answer) st (v : value T) text notes text' notes',
  write_value U beside_notes {| indent_by := ind; leading_indent := lead; custom_formatters := [noting a]; print_context := None |}
    st v (text, notes) = ((text', notes'), true) ->
  exists places questions,
    notes' = notes ++ questions /\ map Some questions = map (node_at v) places /\
    StronglySorted comes_before places /\ (forall p, In p places <-> reached a v p).
Proof.
  intros T U ind lead a st v text notes text' notes' H.
  pose proof (C98_rules _ _ _ _ _ _ _ _ _ _ H) as H'. cbn [indent_by leading_indent custom_formatters print_context] in H'.
  apply (proj1 (written_notes U ind lead a st) _ _ _ _) in H'; [|reflexivity]. cbn [snd] in H'.
  destruct (places a v) as (ps & Hs & Hp & Hm). exists ps, (questions a v). exact (conj H' (conj Hm (conj Hs Hp))).
Qed.
Print Assumptions C98_questions.

(** A formatter may write something and then decline, against the advice of its documentation: what it wrote stays, so
    declining is not the same as not being there. *)
Theorem C98_declining_is_silent_refuted : exists (g : value unit -> str -> option bool * str) (v : value unit),
  (forall v w, fst (g v w) = None) /\
  write_value ascii_unicode string_wr {| indent_by := []; leading_indent := []; custom_formatters := [g]; print_context := None |} Normal v []
  <> write_value ascii_unicode string_wr (plain_cfg [] []) Normal v [].
Proof.
  exists (fun _ w => (None, w ++ s2l "?")), (vu128 1). split; [reflexivity|]. vm_compute. discriminate.
Qed.
Print Assumptions C98_declining_is_silent_refuted.

(** ** Examples *)
(** A formatter that remembers: it replaces every string after the first by a mark, and counts. *)
Definition first_string_only (v : value unit) (w : str * nat) : option bool * (str * nat) :=
  match v with
  | Val (DPrim (PString _)) _ => match snd w with O => (None, (fst w, 1%nat)) | S n => (Some true, (fst w ++ s2l "..", S (S n))) end
  | _ => (None, w)
  end.
Definition beside_count (w : str * nat) (s : str) : str * nat * bool := ((fst w ++ s, snd w), true).
Example C98_memory_example :
  indifferent beside_count /\
  write_value ascii_unicode beside_count
    {| indent_by := []; leading_indent := []; custom_formatters := [first_string_only]; print_context := None |} Normal
    (unnamed_composite [vstring (s2l "a"); named_composite [(s2l "k", vstring (s2l "b"))]; vstring (s2l "c"); vbool true]) ([], O)
  = ((s2l "(""a"", { k: .. }, .., true)", 3%nat), true).
Proof.
  split; [|vm_compute; reflexivity]. split; intros; unfold beside_count; cbn [fst snd].
  - rewrite app_nil_r. now destruct w.
  - now rewrite app_assoc.
Qed.

(** A buffer that fills up does not care about the pieces either. *)
Fixpoint bounded (w : str * nat) (s : str) : str * nat * bool :=
  match s with
  | [] => (w, true)
  | c :: s' => match snd w with O => (w, false) | S n => bounded (fst w ++ [c], n) s' end
  end.
Example C98_bounded_example :
  indifferent bounded /\
  write_value ascii_unicode bounded (plain_cfg [] []) Normal (unnamed_composite [vu128 12345; vbool true]) ([], 5%nat)
  = ((s2l "(1234", O), false).
Proof.
  split; [|vm_compute; reflexivity]. split; [intros []; reflexivity|].
  intros w a; revert w; induction a as [|c a IH]; intros [t n] b; cbn [bounded app]; [reflexivity|].
  cbn [snd fst]. destruct n; [reflexivity|apply IH].
Qed.

(** Contexts, a custom formatter that answers for lists, and a question about each value outside of them. *)
Example C98_questions_example :
  let lists := fun v : value unit => match v with Val (DComposite (Unnamed _)) _ => Writes (s2l "[..]") | _ => Declines end in
  let v := named_composite [(s2l "a", unnamed_composite [vu128 1]); (s2l "b", unnamed_variant (s2l "X") [vbool true])] in
  write_value ascii_unicode beside_notes
    {| indent_by := []; leading_indent := []; custom_formatters := [noting lists]; print_context := None |} Compact v ([], [])
  = ((s2l "{a:[..],b:X(true)}", [v; unnamed_composite [vu128 1]; unnamed_variant (s2l "X") [vbool true]; vbool true]), true).
Proof. vm_compute. reflexivity. Qed.
