(** * Props_Builder: C88, builders after any history of calls. *)
From Verif Require Import Base Value Chars Fmt Parse Builder.

(** ** Specification *)
(** [settled sets calls d x]: what [sets] reads off the last call it reads anything off is [x]; [d] if there is none. *)
Definition settled {A C : Type} (sets : C -> option A) (calls : list C) (d x : A) : Prop :=
  (x = d /\ forall c, In c calls -> sets c = None) \/
  (exists before c after, calls = before ++ c :: after /\ sets c = Some x /\ forall c', In c' after -> sets c' = None).

Section Sets.
  Context {T W : Type}.
  Definition sets_style (c : wcall T W) : option style := match c with CCompact => Some Compact | CPretty => Some (Pretty 0) | _ => None end.
  Definition sets_indent (c : wcall T W) : option str := match c with CIndentBy s => Some s | _ => None end.
  Definition sets_leading (c : wcall T W) : option str := match c with CLeadingIndent s => Some s | _ => None end.
  Definition sets_context (c : wcall T W) : option (option (T -> W -> bool * W)) := match c with CFormatContext f => Some (Some f) | _ => None end.
  Definition adds_formatter (c : wcall T W) : list (value T -> W -> option bool * W) := match c with CAddFormatter f => [f] | _ => [] end.
End Sets.

(** ** Proofs *)
Lemma settled_step {A C} (sets : C -> option A) calls d x c : settled sets calls d x ->
  settled sets (calls ++ [c]) d (match sets c with Some y => y | None => x end).
Proof.
  intro H. destruct (sets c) as [y|] eqn:E.
  - right. exists calls, c, []. split; [reflexivity|]. split; [exact E|intros c' []].
  - destruct H as [[-> H]|(b & c0 & a & -> & H1 & H2)].
    + left. split; [reflexivity|]. intros c' HI. apply in_app_or in HI as [HI|[<-|[]]]; [apply H, HI|exact E].
    + right. exists b, c0, (a ++ [c]). rewrite <- app_assoc. split; [reflexivity|]. split; [exact H1|]. intros c' HI. apply in_app_or in HI as [HI|[<-|[]]]; [apply H2, HI|exact E].
Qed.
Lemma settled_fun {A C} (sets : C -> option A) calls d : forall x y, settled sets calls d x -> settled sets calls d y -> x = y.
Proof.
  induction calls as [|c calls IH] using rev_ind; intros x y HX HY.
  - destruct HX as [[-> _]|(b & c & a & E & _)]; [|destruct b; discriminate]. destruct HY as [[-> _]|(b & c & a & E & _)]; [reflexivity|destruct b; discriminate].
  - assert (HS : forall z, settled sets (calls ++ [c]) d z -> match sets c with Some w => z = w | None => settled sets calls d z end).
    { intros z [[-> H]|(b & c0 & a & E & H1 & H2)].
      - rewrite (H c) by (apply in_or_app; right; left; reflexivity). left. split; [reflexivity|]. intros c' HI. apply H, in_or_app. left. exact HI.
      - destruct a as [|a0 a'] using rev_ind.
        + apply app_inj_tail in E as [-> ->]. rewrite H1. reflexivity.
        + rewrite app_comm_cons, app_assoc in E. apply app_inj_tail in E as [-> ->]. rewrite (H2 a0) by (apply in_or_app; right; left; reflexivity).
          right. exists b, c0, a'. split; [reflexivity|]. split; [exact H1|]. intros c' HI. apply H2, in_or_app. left. exact HI. }
    pose proof (HS x HX) as H1. pose proof (HS y HY) as H2. destruct (sets c); [congruence|apply IH; assumption].
Qed.

(** After any calls in any order, a builder has the style, the indents and the context printer set last (initially: one line with spaces, two spaces, none,
    none), and all formatters that were added, in the order of the calls.  Nothing else counts: this determines what is written. *)
Theorem C88_writer : forall T W (calls : list (wcall T W)),
  let b := to_writer_custom calls in
  settled sets_style calls Normal (wb_style b) /\ settled sets_indent calls (s2l "  ") (indent_by (wb_cfg b)) /\
  settled sets_leading calls [] (leading_indent (wb_cfg b)) /\ settled sets_context calls None (print_context (wb_cfg b)) /\
  custom_formatters (wb_cfg b) = flat_map adds_formatter calls.
Proof.
  intros T W calls. cbv zeta. unfold to_writer_custom. induction calls as [|c calls IH] using rev_ind.
  - repeat apply conj; try reflexivity; left; (split; [reflexivity|intros c []]).
  - rewrite fold_left_app. cbn [fold_left]. destruct IH as (H1 & H2 & H3 & H4 & H5). apply (settled_step _ _ _ _ c) in H1, H2, H3, H4.
    rewrite flat_map_app. cbn [flat_map]. rewrite app_nil_r, <- H5.
    destruct c; cbn [wstep wb_style wb_cfg indent_by leading_indent custom_formatters print_context sets_style sets_indent sets_leading sets_context adds_formatter] in *;
      repeat apply conj; try assumption; try reflexivity; symmetry; apply app_nil_r.
Qed.
Print Assumptions C88_writer.

(** So two histories that agree on what was set last and on the formatters write the same, whatever the value and the writer. *)
Theorem C88_same_output : forall T W (calls calls' : list (wcall T W)),
  (forall x, settled sets_style calls Normal x -> settled sets_style calls' Normal x) ->
  (forall x, settled sets_indent calls (s2l "  ") x -> settled sets_indent calls' (s2l "  ") x) ->
  (forall x, settled sets_leading calls [] x -> settled sets_leading calls' [] x) ->
  (forall x, settled sets_context calls None x -> settled sets_context calls' None x) ->
  flat_map adds_formatter calls = flat_map adds_formatter calls' ->
  forall U wr v w, wwrite U wr (to_writer_custom calls) v w = wwrite U wr (to_writer_custom calls') v w.
Proof.
  intros T W calls calls' HS HI HL HC HF U wr v w.
  destruct (C88_writer T W calls) as (A1 & A2 & A3 & A4 & A5). destruct (C88_writer T W calls') as (B1 & B2 & B3 & B4 & B5).
  pose proof (settled_fun _ _ _ _ _ (HS _ A1) B1) as E1. pose proof (settled_fun _ _ _ _ _ (HI _ A2) B2) as E2. pose proof (settled_fun _ _ _ _ _ (HL _ A3) B3) as E3.
  pose proof (settled_fun _ _ _ _ _ (HC _ A4) B4) as E4. rewrite HF, <- B5 in A5.
  replace (to_writer_custom calls) with (to_writer_custom calls'); [reflexivity|]. destruct (to_writer_custom calls) as [s [i l c p]], (to_writer_custom calls') as [s' [i' l' c' p']].
  cbn [wb_style wb_cfg indent_by leading_indent custom_formatters print_context] in *. subst. reflexivity.
Qed.
Print Assumptions C88_same_output.

(** A call that sets something can be moved past, or dropped before, ... : calls about different things commute, a repeated setting forgets the earlier one. *)
Theorem C88_commute : forall T W (pre post : list (wcall T W)) c1 c2,
  (sets_style c1 = None \/ sets_style c2 = None) -> (sets_indent c1 = None \/ sets_indent c2 = None) -> (sets_leading c1 = None \/ sets_leading c2 = None) ->
  (sets_context c1 = None \/ sets_context c2 = None) -> (adds_formatter c1 = [] \/ adds_formatter c2 = []) ->
  to_writer_custom (pre ++ c1 :: c2 :: post) = to_writer_custom (pre ++ c2 :: c1 :: post).
Proof.
  intros T W pre post c1 c2 H1 H2 H3 H4 H5. unfold to_writer_custom. rewrite !fold_left_app. cbn [fold_left]. f_equal.
  destruct c1, c2; cbn [sets_style sets_indent sets_leading sets_context adds_formatter] in *; try reflexivity; exfalso.
  all: try (destruct H1; discriminate); try (destruct H2; discriminate); try (destruct H3; discriminate); try (destruct H4; discriminate); destruct H5; discriminate.
Qed.
Print Assumptions C88_commute.

(** Once a style was chosen there is no way back to the initial one. *)
Theorem C88_back_to_normal_refuted : forall T W (calls : list (wcall T W)), (exists c, In c calls /\ sets_style c <> None) -> wb_style (to_writer_custom calls) <> Normal.
Proof.
  intros T W calls (c & HI & HC) E. destruct (C88_writer T W calls) as [[[_ H]|(b & c0 & a & -> & H & _)] _].
  - exact (HC (H c HI)).
  - rewrite E in H. destruct c0; discriminate.
Qed.
Print Assumptions C88_back_to_normal_refuted.

(** The order in which formatters are added counts. *)
Theorem C88_formatters_commute_refuted : exists (f g : value unit -> str -> option bool * str) v,
  wwrite ascii_unicode string_wr (to_writer_custom [CAddFormatter f; CAddFormatter g]) v [] <> wwrite ascii_unicode string_wr (to_writer_custom [CAddFormatter g; CAddFormatter f]) v [].
Proof.
  exists (fun _ w => (Some true, w ++ s2l "f")), (fun _ w => (Some true, w ++ s2l "g")), (vbool true). vm_compute. discriminate.
Qed.
Print Assumptions C88_formatters_commute_refuted.

(** A parser builder holds the parsers in the order of the calls. *)
Theorem C88_parser : forall U calls s, fparse U (from_str_custom calls) s = parse_custom U calls s.
Proof.
  intros U calls s. unfold fparse. f_equal. unfold from_str_custom. assert (H : forall l acc, fold_left (fun ps (p : cparser) => ps ++ [p]) l acc = acc ++ l).
  { induction l as [|p l IH]; intro acc; cbn [fold_left]; [rewrite app_nil_r; reflexivity|]. rewrite IH, <- app_assoc. reflexivity. }
  apply H.
Qed.
Print Assumptions C88_parser.

(** [stringify::to_writer] (no calls) and [{}] agree, and so do [.pretty()] and [{:#}]. *)
Theorem C88_display : forall T U (v : value T),
  (let (w, ok) := wwrite U string_wr (to_writer_custom []) v [] in if ok then Some w else None) = display U false v /\
  (let (w, ok) := wwrite U string_wr (to_writer_custom [CPretty]) v [] in if ok then Some w else None) = display U true v.
Proof. intros T U v. split; reflexivity. Qed.
Print Assumptions C88_display.

Example C88_demo :
  let v : value unit := unnamed_composite [vu128 1; vu128 2] in
  let write calls := fst (wwrite ascii_unicode string_wr (to_writer_custom calls) v []) in
  write [] = s2l "(1, 2)" /\ write [CCompact] = s2l "(1,2)" /\ write [CPretty; CIndentBy (s2l "x"); CCompact] = s2l "(1,2)" /\
  write [CIndentBy (s2l "x"); CCompact; CPretty; CIndentBy (s2l "--")] = (s2l "(" ++ [10] ++ s2l "--1," ++ [10] ++ s2l "--2" ++ [10] ++ s2l ")")%N.
Proof. repeat apply conj; vm_compute; reflexivity. Qed.
