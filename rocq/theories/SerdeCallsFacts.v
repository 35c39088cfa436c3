(** * SerdeCallsFacts: facts for C70. *)
From Verif Require Import Base Value Serde SerdeFacts SerdeCalls Spec_Calls.

Lemma key_of_text k v s : to_value_sd k = Ok v -> (key_of v = Ok s <-> key_text k s).
Proof.
  intro H. unfold key_text. rewrite H. destruct v as [d []]. unfold key_of. cbn [vdef_of]. split.
  - destruct d as [| | |[]]; try discriminate; intro E; injection E as <-; [right|left; reflexivity]. eexists. split; reflexivity.
  - intros [E|(c & E & ->)]; injection E as ->; reflexivity.
Qed.
Lemma key_text_fun k s s' : key_text k s -> key_text k s' -> s = s'.
Proof.
  intros [H|(c & H & ->)] [H'|(c' & H' & ->)]; rewrite H in H'; try discriminate H'; injection H' as <-; reflexivity.
Qed.

(** The state after one call. *)
Inductive key_result (k : sd) : Type :=
| kr_ok s (H : key_text k s)
| kr_err e (H : to_value_sd k = Err e)
| kr_bad v (H : to_value_sd k = Ok v) (N : forall s, ~ key_text k s).
Lemma key_cases k : key_result k.
Proof.
  destruct (to_value_sd k) as [v|e] eqn:E.
  - destruct (key_of v) as [s|e] eqn:K.
    + apply (kr_ok k s). now apply (key_of_text k v s E).
    + apply (kr_bad k v E). intros s H. apply (key_of_text k v s E) in H. congruence.
  - now apply (kr_err k e).
Defined.

Definition with_key (st : named_ser) (o : option str) : named_ser := {| ns_variant := ns_variant st; ns_values := ns_values st; ns_key := o |}.

Lemma key_call_ok st k s : key_text k s -> ns_serialize_key st k = Returns (Ok tt) (with_key st (Some s)).
Proof.
  intro H. unfold ns_serialize_key. destruct (to_value_sd k) as [v|e] eqn:E.
  - apply (key_of_text k v s E) in H. now rewrite H.
  - destruct H as [H|(c & H & _)]; congruence.
Qed.
Lemma key_call_err st k e : to_value_sd k = Err e -> ns_serialize_key st k = Returns (Err e) st.
Proof. intro H. unfold ns_serialize_key. now rewrite H. Qed.
Lemma key_call_bad st k v : to_value_sd k = Ok v -> (forall s, ~ key_text k s) -> ns_serialize_key st k = Returns (Err SEMapKeyMustBeStringlike) st.
Proof.
  intros H N. unfold ns_serialize_key. rewrite H. destruct (key_of v) as [s|e] eqn:K.
  - apply (key_of_text k v s H) in K. now destruct (N s).
  - revert K. unfold key_of. destruct (vdef_of v) as [| | |[]]; intro K; congruence.
Qed.

(** ** Pending keys *)
Lemma snoc_cases {A} (l b2 : list A) b1 x y : l ++ [y] = b1 ++ x :: b2 ->
  (b2 = [] /\ l = b1 /\ y = x) \/ exists b2', b2 = b2' ++ [y] /\ l = b1 ++ x :: b2'.
Proof.
  destruct b2 as [|z b2 _] using rev_ind.
  - intro E. apply app_inj_tail in E as [-> ->]. now left.
  - intro E. right. exists b2. change (b1 ++ x :: b2 ++ [z]) with (b1 ++ (x :: b2) ++ [z]) in E. rewrite app_assoc in E. apply app_inj_tail in E as [-> ->]. now split.
Qed.

Lemma pending_field p k x s : pending (p ++ [CField k x]) s <-> pending p s.
Proof.
  split.
  - intros (b1 & k' & b2 & E & K & NV & NK). apply snoc_cases in E as [(-> & -> & E)|(b2' & -> & ->)]; [discriminate E|].
    exists b1, k', b2'. repeat split; auto.
    + intros y I. apply (NV y). apply in_or_app. now left.
    + intros k0 s0 I. apply (NK k0 s0). apply in_or_app. now left.
  - intros (b1 & k' & b2 & -> & K & NV & NK). exists b1, k', (b2 ++ [CField k x]). split; [now rewrite <- app_assoc|]. repeat split; auto.
    + intros y I. apply in_app_or in I as [I|[I|[]]]; [now apply (NV y)|discriminate I].
    + intros k0 s0 I. apply in_app_or in I as [I|[I|[]]]; [now apply (NK k0 s0)|discriminate I].
Qed.
Lemma pending_value p x s : ~ pending (p ++ [CValue x]) s.
Proof.
  intros (b1 & k' & b2 & E & K & NV & NK). apply snoc_cases in E as [(-> & -> & E)|(b2' & -> & ->)]; [discriminate E|].
  apply (NV x). apply in_or_app. right. now left.
Qed.
Lemma pending_key p k s : key_text k s -> pending (p ++ [CKey k]) s.
Proof. intro H. exists p, k, []. repeat split; auto. Qed.
Lemma pending_key_inv p k s s' : key_text k s -> pending (p ++ [CKey k]) s' -> s' = s.
Proof.
  intros H (b1 & k' & b2 & E & K & NV & NK). apply snoc_cases in E as [(-> & -> & E)|(b2' & -> & ->)].
  - injection E as ->. eapply key_text_fun; eassumption.
  - destruct (NK k s); [apply in_or_app; right; now left|exact H].
Qed.
Lemma pending_badkey p k s : (forall s0, ~ key_text k s0) -> (pending (p ++ [CKey k]) s <-> pending p s).
Proof.
  intro N. split.
  - intros (b1 & k' & b2 & E & K & NV & NK). apply snoc_cases in E as [(-> & -> & E)|(b2' & -> & ->)].
    + injection E as ->. now destruct (N s).
    + exists b1, k', b2'. repeat split; auto.
      * intros y I. apply (NV y). apply in_or_app. now left.
      * intros k0 s0 I. apply (NK k0 s0). apply in_or_app. now left.
  - intros (b1 & k' & b2 & -> & K & NV & NK). exists b1, k', (b2 ++ [CKey k]). split; [now rewrite <- app_assoc|]. repeat split; auto.
    + intros y I. apply in_app_or in I as [I|[I|[]]]; [now apply (NV y)|discriminate I].
    + intros k0 s0 I. apply in_app_or in I as [I|[I|[]]]; [now apply (NK k0 s0)|]. injection I as ->. apply N.
Qed.
Lemma pending_nil s : ~ pending [] s.
Proof. intros (b1 & k' & b2 & E & _). destruct b1; discriminate E. Qed.

(** ** Added fields *)
Lemma fields_nil : fields_added [] [].
Proof. exists []. repeat split. intros i c o H. destruct i; discriminate H. Qed.

Lemma fields_snoc p c o fs : fields_added p fs -> adds p c o -> fields_added (p ++ [c]) (fs ++ opt_list o).
Proof.
  intros (ad & L & H & ->) HA. exists (ad ++ [o]). split; [now rewrite !app_length, L|]. split.
  - intros i c' o' Hc Ho. destruct (Nat.lt_ge_cases i (length p)) as [I|I].
    + rewrite nth_error_app1 in Hc by lia. rewrite nth_error_app1 in Ho by lia. rewrite firstn_app. replace (i - length p)%nat with O by lia.
      cbn [firstn]. rewrite app_nil_r. eauto.
    + rewrite nth_error_app2 in Hc by lia. rewrite nth_error_app2 in Ho by lia. rewrite L in Ho.
      destruct (i - length p)%nat as [|j] eqn:J; [|destruct j; discriminate Hc]. cbn [nth_error] in Hc, Ho. injection Hc as <-. injection Ho as <-.
      replace i with (length p) by lia. rewrite firstn_app, firstn_all, Nat.sub_diag. cbn [firstn]. now rewrite app_nil_r.
  - rewrite map_app, concat_app. cbn [map concat]. now rewrite app_nil_r.
Qed.

(** ** Runs *)
Lemma run_app {S C} (f : S -> C -> step S) s l1 l2 : run f s (l1 ++ l2) =
  match run f s l1 with
  | None => None
  | Some (rs, s') => match run f s' l2 with Some (rs', s'') => Some (rs ++ rs', s'') | None => None end
  end.
Proof.
  revert s. induction l1 as [|c l1 IH]; intro s; cbn [app run].
  - destruct (run f s l2) as [[rs' s'']|]; reflexivity.
  - destruct (f s c) as [r s'|]; [|reflexivity]. rewrite IH. destruct (run f s' l1) as [[rs s1]|]; [|reflexivity].
    destruct (run f s1 l2) as [[rs' s2]|]; reflexivity.
Qed.

Definition good_state (variant : option str) (p : list call) (st : named_ser) : Prop :=
  ns_variant st = variant /\ fields_added p (ns_values st) /\ (forall s, ns_key st = Some s <-> pending p s).

Lemma app_opt_none {A} (l : list A) : l = l ++ opt_list None.
Proof. now rewrite app_nil_r. Qed.

Lemma call_good variant p st c : good_state variant p st ->
  (exists r st', ns_call st c = Returns r st' /\ answer c r /\ good_state variant (p ++ [c]) st') \/
  (ns_call st c = Panics /\ exists x, c = CValue x /\ forall s, ~ pending p s).
Proof.
  intros (HV & HF & HK). destruct c as [k|x|k x]; cbn [ns_call].
  - left. destruct (key_cases k) as [s K|e E|v E N].
    + exists (Ok tt), (with_key st (Some s)). split; [now apply key_call_ok|]. split; [now apply (ans_key k s)|]. split; [exact HV|]. split.
      * cbn [with_key ns_values]. rewrite (app_opt_none (ns_values st)). apply fields_snoc; [exact HF|constructor].
      * intro s'. cbn [with_key ns_key]. split; [intro E; injection E as <-; now apply pending_key|]. intro P. now rewrite (pending_key_inv p k s s' K P).
    + exists (Err e), st. split; [now apply key_call_err|]. split; [now apply ans_key_err|]. split; [exact HV|]. split.
      * rewrite (app_opt_none (ns_values st)). apply fields_snoc; [exact HF|constructor].
      * intro s'. rewrite pending_badkey; [apply HK|]. intros s0 [H|(c & H & _)]; congruence.
    + exists (Err SEMapKeyMustBeStringlike), st. split; [now apply (key_call_bad st k v)|]. split; [now apply (ans_key_bad k v)|]. split; [exact HV|]. split.
      * rewrite (app_opt_none (ns_values st)). apply fields_snoc; [exact HF|constructor].
      * intro s'. rewrite pending_badkey; [apply HK|exact N].
  - unfold ns_serialize_value, ns_field. destruct (ns_key st) as [s|] eqn:KS.
    + assert (P : pending p s) by now apply HK. left. destruct (to_value_sd x) as [v|e] eqn:E.
      * eexists _, _. split; [reflexivity|]. split; [now apply (ans_value x v)|]. split; [exact HV|]. cbn [ns_values ns_key]. split.
        -- change ([(s, v)]) with (opt_list (Some (s, v))). apply fields_snoc; [exact HF|now apply add_value].
        -- intro s'. split; [discriminate|]. intro P'. now destruct (pending_value p x s').
      * eexists _, _. split; [reflexivity|]. split; [now apply ans_value_err|]. split; [exact HV|]. cbn [ns_values ns_key]. split.
        -- rewrite (app_opt_none (ns_values st)). apply fields_snoc; [exact HF|now apply (add_value_err p s x e)].
        -- intro s'. split; [discriminate|]. intro P'. now destruct (pending_value p x s').
    + right. split; [reflexivity|]. exists x. split; [reflexivity|]. intros s P. apply HK in P. discriminate P.
  - left. unfold ns_field. destruct (to_value_sd x) as [v|e] eqn:E.
    + eexists _, _. split; [reflexivity|]. split; [now apply (ans_field k x v)|]. split; [exact HV|]. cbn [ns_values ns_key]. split.
      * change ([(k, v)]) with (opt_list (Some (k, v))). apply fields_snoc; [exact HF|now constructor].
      * intro s'. rewrite pending_field. apply HK.
    + eexists _, _. split; [reflexivity|]. split; [now apply ans_field_err|]. split; [exact HV|]. cbn [ns_values ns_key]. split.
      * rewrite (app_opt_none (ns_values st)). apply fields_snoc; [exact HF|now apply (add_field_err p k x e)].
      * intro s'. rewrite pending_field. apply HK.
Qed.

Definition orphan (calls : list call) : Prop :=
  exists before x after, calls = before ++ CValue x :: after /\ forall s, ~ pending before s.

Lemma run_good variant calls : 
  (exists rs st, run ns_call (ns_new variant) calls = Some (rs, st) /\ Forall2 answer calls rs /\ good_state variant calls st /\ ~ orphan calls) \/
  (run ns_call (ns_new variant) calls = None /\ orphan calls).
Proof.
  induction calls as [|c calls IH] using rev_ind.
  - left. exists [], (ns_new variant). split; [reflexivity|]. split; [constructor|]. split; [split; [reflexivity|split; [apply fields_nil|]]|].
    + intro s. split; [discriminate|]. intro P. now destruct (pending_nil s).
    + intros (b & x & a & E & _). destruct b; discriminate E.
  - destruct IH as [(rs & st & R & A & G & NO)|(R & O)].
    + rewrite run_app, R. cbn [run]. destruct (call_good variant calls st c G) as [(r & st' & E & A' & G')|(E & x & -> & NP)]; rewrite E.
      * left. exists (rs ++ [r]), st'. split; [reflexivity|]. split; [now apply Forall2_app; [exact A|constructor; [exact A'|constructor]]|]. split; [exact G'|].
        intros (b & x & a & E' & NP). apply snoc_cases in E' as [(-> & -> & ->)|(a' & -> & ->)].
        -- cbn [ns_call] in E. unfold ns_serialize_value in E. destruct G as (_ & _ & HK). destruct (ns_key st) as [s|]; [|discriminate E].
           apply (NP s). now apply HK.
        -- apply NO. now exists b, x, a'.
      * right. split; [reflexivity|]. now exists calls, x, [].
    + right. rewrite run_app, R. split; [reflexivity|]. destruct O as (b & x & a & -> & NP). exists b, x, (a ++ [c]). split; [now rewrite <- app_assoc|exact NP].
Qed.

(** ** Well-behaved callers *)
Definition map_calls (l : list (sd * sd)) : list call := concat (map (fun kx => [CKey (fst kx); CValue (snd kx)]) l).
Definition struct_calls (l : list (str * sd)) : list call := map (fun kx => CField (fst kx) (snd kx)) l.

Lemma strict_map l : forall st, run_strict ns_call st (map_calls l) =
  Some (rmap (fun fs => {| ns_variant := ns_variant st; ns_values := ns_values st ++ fs; ns_key := match l with [] => ns_key st | _ => None end |})
    (mapM (fun kv => match kv with (k, x) =>
                 bind (to_value_sd k) (fun kk => bind (key_of kk) (fun s => bind (to_value_sd x) (fun v => Ok (s, v)))) end) l)).
Proof.
  induction l as [|[k x] l IH]; intros [sv vs sk].
  - cbn [map_calls map concat run_strict mapM rmap ns_variant ns_values ns_key]. now rewrite app_nil_r.
  - unfold map_calls. cbn [map concat app fst snd run_strict ns_call mapM]. unfold ns_serialize_key.
    destruct (to_value_sd k) as [kk|e]; [|reflexivity]. cbn [bind]. destruct (key_of kk) as [s|e]; [|reflexivity]. cbn [bind].
    unfold ns_serialize_value, ns_field. cbn [ns_key ns_variant ns_values]. destruct (to_value_sd x) as [v|e]; [|reflexivity]. cbn [bind].
    fold (map_calls l). rewrite IH. cbn [ns_key ns_variant ns_values]. destruct (mapM _ l) as [fs|e]; [|reflexivity]. cbn [rmap].
    rewrite <- app_assoc. cbn [app]. destruct l; reflexivity.
Qed.

Lemma strict_struct l : forall st, run_strict ns_call st (struct_calls l) =
  Some (rmap (fun fs => {| ns_variant := ns_variant st; ns_values := ns_values st ++ fs; ns_key := ns_key st |})
    (mapM (fun nx => match nx with (n, x) => bind (to_value_sd x) (fun v => Ok (n, v)) end) l)).
Proof.
  induction l as [|[k x] l IH]; intros [sv vs sk].
  - cbn [struct_calls map run_strict mapM rmap ns_variant ns_values ns_key]. now rewrite app_nil_r.
  - unfold struct_calls. cbn [map fst snd run_strict ns_call mapM]. unfold ns_field. cbn [ns_key ns_variant ns_values].
    destruct (to_value_sd x) as [v|e]; [|reflexivity]. cbn [bind]. fold (struct_calls l). rewrite IH. cbn [ns_key ns_variant ns_values].
    destruct (mapM _ l) as [fs|e]; [|reflexivity]. cbn [rmap]. now rewrite <- app_assoc.
Qed.

Lemma strict_seq l : forall st, run_strict us_element st l =
  Some (rmap (fun vs => {| us_variant := us_variant st; us_values := us_values st ++ vs |}) (mapM to_value_sd l)).
Proof.
  induction l as [|x l IH]; intros [sv vs].
  - cbn [run_strict mapM rmap us_variant us_values]. now rewrite app_nil_r.
  - cbn [run_strict mapM]. unfold us_element. cbn [us_variant us_values]. destruct (to_value_sd x) as [v|e]; [|reflexivity]. cbn [bind].
    rewrite IH. cbn [us_variant us_values]. destruct (mapM _ l) as [fs|e]; [|reflexivity]. cbn [rmap]. now rewrite <- app_assoc.
Qed.

Lemma run_seq l : forall st, exists rs, run us_element st l =
  Some (rs, {| us_variant := us_variant st; us_values := us_values st ++ concat (map (fun x => match to_value_sd x with Ok v => [v] | Err _ => [] end) l) |}) /\
  rs = map (fun x => rmap (fun _ => tt) (to_value_sd x)) l.
Proof.
  induction l as [|x l IH]; intros [sv vs].
  - exists []. cbn [run map concat us_variant us_values]. rewrite app_nil_r. split; reflexivity.
  - cbn [run map concat]. unfold us_element at 1. cbn [us_variant us_values]. destruct (to_value_sd x) as [v|e].
    + destruct (IH {| us_variant := sv; us_values := vs ++ [v] |}) as (rs & E & ->). rewrite E. cbn [us_variant us_values]. eexists. split; [|reflexivity]. now rewrite <- app_assoc.
    + destruct (IH {| us_variant := sv; us_values := vs |}) as (rs & E & ->). rewrite E. cbn [us_variant us_values]. eexists. split; [|reflexivity]. reflexivity.
Qed.
