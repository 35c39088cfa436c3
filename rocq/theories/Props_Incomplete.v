(** * Props_Incomplete: C104 text that is not finished *)
From Verif Require Import Base Value Chars Parse Spec_Grammar ParseFacts ParseComplete ParseSound ParseNum Spec_Incomplete IncompleteFacts Props_Parse.
Local Open Scope N_scope.

Lemma any_fuel U s k : (length s < k)%nat -> from_str U s = parse_value U (blen s) [] k s.
Proof. intro H. symmetry. apply parse_custom_fuel; [apply no_customs_ok|exact H]. Qed.

Lemma appended U s more : kept U s more s (from_str U s) (from_str U (s ++ more)).
Proof.
  rewrite (any_fuel U s (S (length (s ++ more)))) by (rewrite app_length; lia).
  rewrite (any_fuel U (s ++ more) (S (length (s ++ more)))) by lia. apply kept_value. apply suffix_refl.
Qed.

Lemma no_fuel_err U s e r : from_str U s = (Err e, r) -> err e <> EFuel.
Proof.
  intro H. destruct (C08_terminates U [] s (S (length s))) as [_ N]; [intros t e0 cur IN; discriminate|lia|]. apply N. unfold from_str in H. now rewrite H.
Qed.

(** ** Refusals that stay *)
(** When the error does not tell that the text ended too early, no text appended repairs it: the same thing is wrong at the same place. *)
Theorem C104_final : forall U s e r more, from_str U s = (Err e, r) -> ~ cut_short U s e ->
  exists e' r', from_str U (s ++ more) = (Err e', r') /\ same_error e e'.
Proof.
  intros U s e r more H NC. pose proof (appended U s more) as K. pose proof (no_fuel_err _ _ _ _ H) as NF. rewrite H in K. cbn [kept] in K.
  destruct K as [[K|K]|K]; [contradiction|contradiction|exact K].
Qed.
Print Assumptions C104_final.

(** ** Refusals that do not *)
(** When it does, some text makes it whole. *)
Theorem C104_can_be_finished : forall U s e r, unicode_ok U -> from_str U s = (Err e, r) -> cut_short U s e ->
  exists more v, from_str U (s ++ more) = (Ok v, []).
Proof.
  intros U s e r UO H CS. pose proof (no_fuel_err _ _ _ _ H) as NF.
  destruct (value_finish U s (S (length s)) s e r (suffix_refl s) H NF (conj NF CS)) as (more & v & G). exists more, v.
  apply from_str_iff; [exact UO|exact G].
Qed.
Print Assumptions C104_can_be_finished.

(** So the error tells which of the two it is. *)
Theorem C104_exactly : forall U s e r, unicode_ok U -> from_str U s = (Err e, r) ->
  ((exists more v rest, from_str U (s ++ more) = (Ok v, rest)) <-> cut_short U s e).
Proof.
  intros U s e r UO H. pose proof (no_fuel_err _ _ _ _ H) as NF. split.
  - intros (more & v & rest & H'). pose proof (appended U s more) as K. rewrite H in K. cbn [kept] in K.
    destruct K as [[K|K]|(e' & r' & K & _)]; [exact K|contradiction|congruence].
  - intro CS. destruct (C104_can_be_finished _ _ _ _ UO H CS) as (more & v & R). eauto.
Qed.
Print Assumptions C104_exactly.

(** ** Answers that stay *)
(** A value that was read with text left behind it is read from the longer text, too. *)
Theorem C104_settled : forall U s v rest more, unicode_ok U -> from_str U s = (Ok v, rest) -> rest <> [] -> from_str U (s ++ more) = (Ok v, rest ++ more).
Proof.
  intros U s v rest more UO H N. pose proof (appended U s more) as K. rewrite H in K. cbn [kept] in K. destruct K as [W|K]; [|exact K].
  pose proof H as H'. apply from_str_sound in H' as (c & -> & _). rewrite <- app_assoc.
  apply (from_str_rest_indep U c v rest); [exact UO|exact H|]. destruct rest as [|x rest]; [congruence|]. cbn [app not_followed_by].
  unfold ws in W. cbn [forallb] in W. apply andb_true_iff in W as [W _]. revert W. unfold is_whitespace, num_continues, is_digit, c_under. lia.
Qed.
Print Assumptions C104_settled.

(** Whatever can be typed, typed a character at a time: the text read so far is a value, or the error says it is not finished. *)
Theorem C104_typing : forall U s more v rest, unicode_ok U -> from_str U (s ++ more) = (Ok v, rest) ->
  (exists v' rest', from_str U s = (Ok v', rest')) \/ (exists e r, from_str U s = (Err e, r) /\ cut_short U s e).
Proof.
  intros U s more v rest UO H. destruct (from_str U s) as [[v'|e] r] eqn:E; [left; eauto|]. right. exists e, r. split; [reflexivity|].
  apply (C104_exactly U s e r UO E). eauto.
Qed.
Print Assumptions C104_typing.

(** ** What the location alone does not tell *)
(** An error at the end of the text need not mean that the text is not finished: a wrong escape code in a char is reported behind the code. *)
Theorem C104_at_the_end_refuted : exists s e r, from_str ascii_unicode s = (Err e, r) /\ start_loc e = blen s /\
  forall more v rest, from_str ascii_unicode (s ++ more) <> (Ok v, rest).
Proof.
  exists (s2l "'\q"). eexists _, _. split; [vm_compute; reflexivity|]. split; [vm_compute; reflexivity|]. intros more v rest H.
  assert (E : exists e r, from_str ascii_unicode (s2l "'\q") = (Err e, r) /\ ~ cut_short ascii_unicode (s2l "'\q") e).
  { eexists _, _. split; [vm_compute; reflexivity|]. intros [[_ B]|[B _]]; [|discriminate]. destruct (B eq_refl) as [a B'].
    change (s2l "'\q") with ([39; 92] ++ [113]) in B'. apply app_inj_tail in B' as [_ B']. discriminate. }
  destruct E as (e & r & E & NC). destruct (C104_final _ _ _ _ more E NC) as (e' & r' & E' & _). congruence.
Qed.
Print Assumptions C104_at_the_end_refuted.

(** And an error before the end need not mean that something is wrong there: of a variant whose values are missing the start is reported. *)
Theorem C104_before_the_end_refuted : exists s e r more v, from_str ascii_unicode s = (Err e, r) /\ start_loc e < blen s /\ from_str ascii_unicode (s ++ more) = (Ok v, []).
Proof.
  exists (s2l "(1, Foo"). eexists _, _, (s2l "(2))"), _. split; [vm_compute; reflexivity|]. split; [reflexivity|vm_compute; reflexivity].
Qed.
Print Assumptions C104_before_the_end_refuted.

(** ** Examples *)
Definition where_ (s : String.string) : option (ekind * N) :=
  match from_str ascii_unicode (s2l s) with (Err e, _) => Some (err e, start_loc e) | _ => None end.

(** Not finished. *)
Example C104_open_list : where_ "(1, 2" = Some (ECloser c_rpar 0, 5).
Proof. vm_compute. reflexivity. Qed.
Example C104_open_string : cut_short ascii_unicode (s2l "{ a: ""x\") (PErr 8 (Some 9) (EStrClose 5)) /\ where_ "{ a: ""x\" = Some (EStrClose 5, 8).
Proof. split; [left; split; [reflexivity|discriminate]|vm_compute; reflexivity]. Qed.
Example C104_open_name : where_ "(v""a b" = Some (EExpectedValue, 1) /\ begins_variant ascii_unicode (s2l "v""a b").
Proof.
  split; [vm_compute; reflexivity|]. split; [discriminate|]. exists (s2l "a b"), (s2l "v""a b"""), [], (s2l """"). split; [|split; reflexivity].
  apply (GV_string ascii_unicode (s2l "a b") (s2l """a b""")). exists (s2l "a b"). split; [|reflexivity]. repeat (constructor; [discriminate|discriminate|]). constructor.
Qed.
(** Finished, and wrong. *)
Example C104_wrong : where_ "(1, ]" = Some (EExpectedValue, 4) /\ where_ "{ a 1" = Some (EMissingSep c_colon, 4) /\ where_ "(340282366920938463463374607431768211456" = Some (ENumFailed, 1).
Proof. vm_compute. repeat split. Qed.
(** There the end of the number moves, and its start stays. *)
Example C104_longer_number : exists e r e' r', from_str ascii_unicode (s2l "340282366920938463463374607431768211456") = (Err e, r) /\
  from_str ascii_unicode (s2l "3402823669209384634633746074317682114560") = (Err e', r') /\ same_error e e' /\ end_loc e <> end_loc e'.
Proof. eexists _, _, _, _. split; [vm_compute; reflexivity|]. split; [vm_compute; reflexivity|]. split; [split; reflexivity|discriminate]. Qed.
Example C104_settled_example : from_str ascii_unicode (s2l "true1") = (Ok (vbool true), s2l "1") /\ from_str ascii_unicode (s2l "true1 2") = (Ok (vbool true), s2l "1 2") /\
  from_str ascii_unicode (s2l "12") = (Ok (vu128 12), []) /\ from_str ascii_unicode (s2l "123") = (Ok (vu128 123), []).
Proof. vm_compute. repeat split. Qed.
