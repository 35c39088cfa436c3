(** * Props_Memory: C92 (custom parsers with memory) *)
From Verif Require Import Base Value Chars Parse Spec_Grammar ParseFacts ParseSound ParseState Spec_Memory MemoryFacts Props_Parse Props_Messages.
Local Open Scope N_scope.

Lemma str_eqb_spec a b : reflect (a = b) (str_eqb a b).
Proof. destruct (str_eqb a b) eqn:E; constructor; [now apply str_eqb_eq|now apply str_eqb_neq]. Qed.
Lemma dn_onwards s l u : dn s l u -> onwards s l.
Proof.
  assert (F : forall l x, sdn x l u -> onwards_from x l).
  { clear. induction l as [|y l' IH]; intros x H; cbn [sdn] in H; [constructor|]. destruct H as ([c E] & L & H). rewrite E. apply Of_cons; [|exact (IH y H)].
    intros ->. cbn [app] in E. subst. lia. }
  destruct l as [|x l']; cbn [dn]; [constructor|]. intros [[c E] H]. rewrite E. apply On_cons. apply F. exact H.
Qed.

(** Whatever the parsers remember, they are asked about places of the text one behind the other, never twice about the same place. *)
Theorem C92_asked_in_order : forall U M (ps : list (mparser M)) m s,
  exists l, talk ps m l (fst (mparse_custom U ps m s)) /\ onwards s (map fst l) /\
    forall p, Forall (fun ta => says p (fst ta) (snd ta)) l -> parse_custom U [p] s = snd (mparse_custom U ps m s).
Proof.
  intros U M ps m s. unfold mparse_custom. destruct (value_sim U s ps (S (length s)) m s (suffix_refl s)) as (l & T & D & R).
  exists l. split; [exact T|]. split; [eapply dn_onwards; exact D|]. intros p F. apply R. unfold agree. eapply Forall_impl; [|exact F].
  intros [t a] H. cbn [fst snd run_customs] in *. unfold says in H. destruct a as [[r cur]|]; rewrite H; reflexivity.
Qed.
Print Assumptions C92_asked_in_order.

(** So on each text they do as parsers without memory do that give the same answers. *)
Fixpoint recall (l : list (str * answer)) (t : str) : answer :=
  match l with
  | [] => None
  | (x, a) :: l' => if str_eqb x t then a else recall l' t
  end.
Definition recalling (l : list (str * answer)) : cparser := fun t => match recall l t with Some (r, cur) => (Some r, cur) | None => (None, t) end.

Lemma recall_in l t r cur : recall l t = Some (r, cur) -> In (t, Some (r, cur)) l.
Proof.
  induction l as [|[x a] l IH]; cbn [recall]; [discriminate|]. destruct (str_eqb_spec x t) as [->|N]; [intros ->; left; reflexivity|intro H; right; auto].
Qed.
Lemma onwards_from_shorter x l : onwards_from x l -> forall y, In y l -> (length y < length x)%nat.
Proof.
  revert x. induction l as [|z l IH]; intros x H y HI; [destruct HI|]. inversion H as [|pre t l' NE H']; subst.
  assert (L : (length z < length (pre ++ z))%nat) by (rewrite app_length; destruct pre; [contradiction|cbn [length]; lia]).
  destruct HI as [<-|HI]; [exact L|]. specialize (IH z H' y HI). lia.
Qed.
Lemma recalling_says l s : onwards s (map fst l) -> Forall (fun ta => says (recalling l) (fst ta) (snd ta)) l.
Proof.
  intro H. assert (ND : forall t a, In (t, a) l -> recall l t = a).
  { assert (K : forall l x, onwards_from x (map fst l) -> forall t a, In (t, a) l -> recall l t = a).
    { clear. induction l as [|[y b] l IH]; intros x H t a HI; [destruct HI|]. cbn [map fst] in H. inversion H as [|pre z l' NE H']; subst. cbn [recall].
      destruct HI as [E|HI]; [injection E as <- <-; now destruct (str_eqb_spec y y)|]. destruct (str_eqb_spec y t) as [->|N].
      - exfalso. assert (IT : In t (map fst l)) by (apply in_map_iff; exists (t, a); auto). pose proof (onwards_from_shorter _ _ H' t IT). lia.
      - eapply IH; eassumption. }
    destruct l as [|[y b] l]; intros t a HI; [destruct HI|]. cbn [map fst] in H. inversion H as [|pre z l' H']; subst. cbn [recall].
    destruct HI as [E|HI]; [injection E as <- <-; now destruct (str_eqb_spec y y)|]. destruct (str_eqb_spec y t) as [->|N].
    - exfalso. assert (IT : In t (map fst l)) by (apply in_map_iff; exists (t, a); auto). pose proof (onwards_from_shorter _ _ H' t IT). lia.
    - eapply K; eassumption. }
  apply Forall_forall. intros [t a] HI. cbn [fst snd]. unfold says, recalling. rewrite (ND t a HI). destruct a as [[r cur]|]; reflexivity.
Qed.
Lemma talk_answers {M} (ps : list (mparser M)) m l m' : talk ps m l m' -> forall t a, In (t, a) l -> exists m1 m2, asked ps m1 t m2 a.
Proof. induction 1 as [|m t a m1 l m' E T IH]; intros t' a' HI; [destruct HI|]. destruct HI as [HI|HI]; [injection HI as <- <-; eauto|eauto]. Qed.

Theorem C92_as_without_memory : forall U M (ps : list (mparser M)) m s,
  exists p : cparser, parse_custom U [p] s = snd (mparse_custom U ps m s) /\
    forall t, p t = (None, t) \/ exists m1 m2 r cur, p t = (Some r, cur) /\ asked ps m1 t m2 (Some (r, cur)).
Proof.
  intros U M ps m s. destruct (C92_asked_in_order U M ps m s) as (l & T & O & R). exists (recalling l). split; [apply R; eapply recalling_says; exact O|].
  intro t. unfold recalling. destruct (recall l t) as [[r cur]|] eqn:E; [|left; reflexivity]. right. apply recall_in in E.
  destruct (talk_answers ps _ _ _ T _ _ E) as (m1 & m2 & H). exists m1, m2, r, cur. auto.
Qed.
Print Assumptions C92_as_without_memory.

(** So parsing still ends, with a proper rest of the text, and errors lie in the text, if the errors of the custom parsers always do. *)
Theorem C92_rest_and_errors : forall U M (ps : list (mparser M)) m s,
  (forall m1 m2 t e cur, asked ps m1 t m2 (Some (Err e, cur)) ->
     err e <> EFuel /\ opens (err e) = None /\ (exists a b, t = a ++ b /\ start_loc e = blen a) /\
     match end_loc e with None => True | Some l => start_loc e <= l <= blen t + 1 end) ->
  (exists consumed, s = consumed ++ snd (snd (mparse_custom U ps m s))) /\
  forall e, fst (snd (mparse_custom U ps m s)) = Err e ->
    err e <> EFuel /\ (exists a b, s = a ++ b /\ start_loc e = blen a) /\
    (forall l, end_loc e = Some l -> start_loc e <= l <= blen s + 1) /\
    (forall o st, opens (err e) = Some (o, st) -> exists a b, s = a ++ o :: b /\ st = blen a /\ st < start_loc e).
Proof.
  intros U M ps m s HC. destruct (C92_as_without_memory U M ps m s) as (p & E & HP).
  assert (CC : custom_contract [p]).
  { intros t e cur H. cbn [run_customs] in H. destruct (HP t) as [HN|(m1 & m2 & r & c & H1 & H2)]; [rewrite HN in H; discriminate|].
    rewrite H1 in H. injection H as -> ->. exact (HC m1 m2 t e cur H2). }
  rewrite <- E. destruct (parse_custom U [p] s) as [r rest] eqn:EP. cbn [fst snd]. split; [exact (C06_remaining_is_suffix U [p] s r rest CC EP)|].
  intros e ->. split; [|exact (C07_error_locations U [p] s e rest CC EP)].
  destruct (C08_terminates U [p] s (S (length s)) CC (Nat.lt_succ_diag_r _)) as [_ H]. apply H. rewrite EP. reflexivity.
Qed.
Print Assumptions C92_rest_and_errors.

(** Parsers that do not use their memory are those of Parse.v. *)
Definition forgetful {M} (p : cparser) : mparser M := fun m t => (m, p t).
Theorem C92_without_memory : forall U M (ps : list cparser) (m : M) s, mparse_custom U (map forgetful ps) m s = (m, parse_custom U ps s).
Proof.
  intros U M ps m s. destruct (C92_asked_in_order U M (map forgetful ps) m s) as (l & T & O & R).
  assert (RUN : forall m t, mrun (map forgetful ps) m t = (m : M, run_customs ps t)).
  { clear. induction ps as [|p ps IH]; intros m t; cbn [map mrun run_customs]; [reflexivity|]. unfold forgetful at 1. destruct (p t) as [[r|] cur]; [reflexivity|apply IH]. }
  assert (TM : fst (mparse_custom U (map forgetful ps) m s) = m /\ Forall (fun ta => run_customs ps (fst ta) = snd ta) l).
  { clear O R. set (m' := fst _) in *. clearbody m'. induction T as [|m t a m1 l m' E T IH]; [auto|]. apply asked_mrun in E. rewrite RUN in E. injection E as <- <-. destruct IH as [-> IH]. split; [reflexivity|]. constructor; [reflexivity|exact IH]. }
  destruct TM as [EM AN].
  set (p := fun t => match run_customs ps t with Some (r, cur) => (Some r, cur) | None => (None, t) end).
  assert (EP : parse_custom U [p] s = snd (mparse_custom U (map forgetful ps) m s)).
  { apply R. eapply Forall_impl; [|exact AN]. intros [t a] H. cbn [fst snd] in *. unfold says, p. rewrite H. destruct a as [[r cur]|]; reflexivity. }
  destruct (mparse_custom U (map forgetful ps) m s) as [m' res]. cbn [fst snd] in *. subst m'. rewrite <- EP. f_equal.
  unfold parse_custom. enough (K : forall k t, parse_value U (blen s) [p] k t = parse_value U (blen s) ps k t) by apply K.
  induction k as [|k IH]; intro t; [reflexivity|]. cbn [parse_value run_customs]. unfold p at 1. destruct (run_customs ps t) as [[[v|e] cur]|]; [reflexivity|reflexivity|].
  now apply builtin_same.
Qed.
Print Assumptions C92_without_memory.

(** ** Non-vacuity: a parser that numbers the ["#"]s it meets, in the order of the text. *)
Definition counting : mparser N := fun m t =>
  match t with
  | c :: t' => if c =? 35 then (m + 1, (Some (Ok (vu128 m)), t')) else (m, (None, t))
  | [] => (m, (None, t))
  end.
Example C92_counting : mparse_custom ascii_unicode [counting] 7 (s2l "(#, { a: #, b: V(#, true) }, #)!") =
  (11, (Ok (unnamed_composite [vu128 7; named_composite [(s2l "a", vu128 8); (s2l "b", unnamed_variant (s2l "V") [vu128 9; vbool true])]; vu128 10]), s2l "!")).
Proof. vm_compute. reflexivity. Qed.
(** With memory, parsing the same text again need not give the same. *)
Theorem C92_repeatable_refuted : exists (ps : list (mparser N)) m s, let (m', r) := mparse_custom ascii_unicode ps m s in snd (mparse_custom ascii_unicode ps m' s) <> r.
Proof. exists [counting], 0, (s2l "#"). vm_compute. discriminate. Qed.
Print Assumptions C92_repeatable_refuted.
(** A parser that declines and yet counts how often it was asked: the next parser, and the next question, see the count. *)
Definition tick : mparser N := fun m t => (m + 1, (None, t)).
Example C92_declining : mparse_custom ascii_unicode [tick; counting] 7 (s2l "(#, true, #)") =
  (13, (Ok (unnamed_composite [vu128 9; vbool true; vu128 12]), [])).
Proof. vm_compute. reflexivity. Qed.
Example C92_declining_asked : asked [tick; counting] 7 (s2l "#!") 9 (Some (Ok (vu128 8), s2l "!")).
Proof. eapply As_declines; [reflexivity|]. apply As_answers. reflexivity. Qed.
