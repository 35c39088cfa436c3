(** * Props_Streams: C101 many values one behind the other; input that ends too early *)
From Verif Require Import Base Value ValueFacts Chars Parse Spec_Grammar ParseFacts Fmt Spec_Fmt FmtFacts FmtText Props_Fmt Registry Spec_Scale Spec_Encode Spec_Same Scale ScaleFacts BitsFacts LenFacts.
From Verif Require Import Decode DecodeFacts Spec_Trace Trace TraceFacts Encode EncodeFacts EncodeSame Spec_Streams StreamFacts Demo Props_Decode Props_Encode Props_Same.
Local Open Scope N_scope.

(** ** More input behind *)
(** What was read stays read, and an error other than the two that the end of the input causes is there to stay. *)
Theorem C101_more_input : forall TId C (reg : TId -> resolution TId) X (ctxf : TId -> C) fuel t bs behind,
  (forall v r, decode_as_type reg X ctxf fuel t bs = Ok (v, r) -> decode_as_type reg X ctxf fuel t (bs ++ behind) = Ok (v, r ++ behind)) /\
  (forall e, decode_as_type reg X ctxf fuel t bs = Err e -> e <> ENotEnough -> e <> ECodec -> decode_as_type reg X ctxf fuel t (bs ++ behind) = Err e).
Proof.
  intros TId C reg X ctxf fuel t bs q. unfold decode_as_type. destruct (decode_more reg X ctxf q fuel false t bs) as [E|[E|[(x & r' & E & E')|(e' & E & E')]]]; rewrite E.
  - split; intros; congruence.
  - split; intros; congruence.
  - split; [intros v r [= <- <-]; exact E'|discriminate].
  - split; [discriminate|]. intros e [= <-] _ _. exact E'.
Qed.
Print Assumptions C101_more_input.

Theorem C101_more_fields : forall TId C (reg : TId -> resolution TId) X (ctxf : TId -> C) fuel fs bs behind,
  (forall c r, decode_as_fields reg X ctxf fuel fs bs = Ok (c, r) -> decode_as_fields reg X ctxf fuel fs (bs ++ behind) = Ok (c, r ++ behind)) /\
  (forall e, decode_as_fields reg X ctxf fuel fs bs = Err e -> e <> ENotEnough -> e <> ECodec -> decode_as_fields reg X ctxf fuel fs (bs ++ behind) = Err e).
Proof.
  intros TId C reg X ctxf fuel fs bs q. unfold decode_as_fields.
  destruct (composite_more q _ (decode_more reg X ctxf q fuel false) fs bs) as [E|[E|[(x & r' & E & E')|(e' & E & E')]]]; rewrite E.
  - split; intros; congruence.
  - split; intros; congruence.
  - split; [intros v r [= <- <-]; exact E'|discriminate].
  - split; [discriminate|]. intros e [= <-] _ _. exact E'.
Qed.
Print Assumptions C101_more_fields.

(** The tracing decoder: also where it stopped and what it had decoded. *)
Theorem C101_more_input_traced : forall TId (reg : TId -> resolution TId) X fuel t bs behind,
  (forall v r, trace_as_type reg X fuel t bs = Ok (v, r) -> trace_as_type reg X fuel t (bs ++ behind) = Ok (v, r ++ behind)) /\
  (forall e, trace_as_type reg X fuel t bs = Err e -> cause_of e <> CDecode ENotEnough -> cause_of e <> CDecode ECodec ->
     trace_as_type reg X fuel t (bs ++ behind) = Err e).
Proof.
  intros TId reg X fuel t bs q. unfold trace_as_type. destruct (trace_more reg X q fuel [] false t bs) as [(e' & E & H)|[(x & r' & E & E')|(e' & E & E')]]; rewrite E.
  - split; [discriminate|]. intros e [= <-] H1 H2. destruct H; contradiction.
  - split; [intros v r [= <- <-]; exact E'|discriminate].
  - split; [discriminate|]. intros e [= <-] _ _. exact E'.
Qed.
Print Assumptions C101_more_input_traced.

(** Input that ends before the value does is refused, with one of these two errors, by both decoders. *)
Theorem C101_cut_short : forall TId (reg : TId -> resolution TId) X fuel t bs behind,
  (forall C (ctxf : TId -> C) v r, decode_as_type reg X ctxf fuel t (bs ++ behind) = Ok (v, r) -> (length r < length behind)%nat ->
     decode_as_type reg X ctxf fuel t bs = Err ENotEnough \/ decode_as_type reg X ctxf fuel t bs = Err ECodec) /\
  (forall v r, trace_as_type reg X fuel t (bs ++ behind) = Ok (v, r) -> (length r < length behind)%nat ->
     exists e, trace_as_type reg X fuel t bs = Err e /\ (cause_of e = CDecode ENotEnough \/ cause_of e = CDecode ECodec)).
Proof.
  intros TId reg X fuel t bs q. split.
  - intros C ctxf v r H L. unfold decode_as_type in *. destruct (decode_more reg X ctxf q fuel false t bs) as [E|[E|[(x & r' & E & E')|(e' & E & E')]]]; [left; exact E|right; exact E| |congruence].
    rewrite E' in H. injection H as _ <-. rewrite app_length in L. lia.
  - intros v r H L. unfold trace_as_type in *. destruct (trace_more reg X q fuel [] false t bs) as [(e' & E & H')|[(x & r' & E & E')|(e' & E & E')]]; [eauto| |congruence].
    rewrite E' in H. injection H as _ <-. rewrite app_length in L. lia.
Qed.
Print Assumptions C101_cut_short.

(** ** A buffer of values *)
(** Exactly the values whose encoding alone succeeds are in it, and reading it gives back their data, in order, whatever follows the buffer. *)
Theorem C101_log : forall TId T C (reg : TId -> resolution TId) X F (ctxf : TId -> C) (jobs : list (value T * TId)) out oks out', reg_ok reg -> names_uniform reg ->
  Forall (fun j => small (x_maxbits X) (fst j)) jobs -> write_all reg X F jobs out = (oks, out') ->
  oks = map (fun j => match fst (encode reg X F (fst j) (snd j) []) with SOk => true | _ => false end) jobs /\
  exists bs ws fuel0, out' = out ++ bs /\ Forall2 same (map fst (kept jobs oks)) ws /\
    forall fuel behind, (fuel0 <= fuel)%nat -> read_all reg X ctxf fuel (map snd (kept jobs oks)) (bs ++ behind) = (ws, behind, None).
Proof.
  intros TId T C reg X F ctxf jobs out oks out' OK NU SM W. apply write_pieces in W as (HO & bs & -> & F2). split.
  { rewrite HO. apply map_ext. intro j. unfold succeeds. destruct (encode reg X F (fst j) (snd j) []) as [[| |] o]; reflexivity. }
  destruct (pieces_of reg X F ctxf OK NU _ _ (Forall_kept _ _ oks SM) F2) as (ps & V & <- & <- & HS).
  destruct (read_whole reg X ctxf ps V) as [f0 R]. exists (concat (map snd ps)), (map p_val ps), f0. split; [reflexivity|]. split; [exact HS|].
  intros fuel behind Hf. apply R, Hf.
Qed.
Print Assumptions C101_log.

(** Of a buffer that was cut after any number of bytes exactly the values are read that lie wholly in front of the cut; then the reader meets one of the
    two errors above, with the bytes of the broken value still in front of it. *)
Theorem C101_cut : forall TId T C (reg : TId -> resolution TId) X F (ctxf : TId -> C) (jobs : list (value T * TId)) oks out, reg_ok reg -> names_uniform reg ->
  Forall (fun j => small (x_maxbits X) (fst j)) jobs -> write_all reg X F jobs [] = (oks, out) ->
  let good := kept jobs oks in
  let size k := length (snd (write_all reg X F (firstn k good) [])) in
  exists ws fuel0, Forall2 same (map fst good) ws /\ forall fuel n, (fuel0 <= fuel)%nat ->
    exists k e, (k <= length good)%nat /\ (size k <= n)%nat /\ (forall k', (k < k' <= length good)%nat -> (n < size k')%nat) /\
      read_all reg X ctxf fuel (map snd good) (firstn n out) = (firstn k ws, skipn (size k) (firstn n out), e) /\
      match e with None => k = length good | Some e => (k < length good)%nat /\ (e = ENotEnough \/ e = ECodec) end.
Proof.
  intros TId T C reg X F ctxf jobs oks out OK NU SM W good size. apply write_pieces in W as (HO & bs & E & F2). cbn [app] in E. subst out.
  fold good in F2. assert (SZ : forall k, size k = length (concat (firstn k bs))).
  { intro k. unfold size. rewrite (write_good reg X F _ _ (F2_firstn _ k _ _ F2) []). reflexivity. }
  destruct (pieces_of reg X F ctxf OK NU _ _ (Forall_kept _ _ oks SM) F2) as (ps & V & <- & ET & HS). fold good in ET, HS.
  assert (LG : length good = length ps) by (rewrite <- (map_length snd good), <- ET, map_length; reflexivity).
  destruct (read_cut reg X ctxf ps V) as [f0 R]. exists (map p_val ps), f0. split; [exact HS|].
  intros fuel n Hf. destruct (R fuel Hf n) as (e & R1 & R2). cbv zeta in R1, R2. exists (fit n (map snd ps)), e.
  pose proof (fit_le (map snd ps) n) as L1. pose proof (fit_in (map snd ps) n) as L2. rewrite map_length in L1.
  split; [rewrite LG; exact L1|]. rewrite SZ. split; [exact L2|]. split.
  { intros k' Hk. rewrite SZ. apply fit_max. rewrite map_length. rewrite LG in Hk. exact Hk. }
  rewrite <- ET. split; [exact R1|]. rewrite LG. exact R2.
Qed.
Print Assumptions C101_cut.

(** Three values of which the second has no encoding: the first and the third are written; cut in the third, the first is read. *)
Definition log_jobs : list (value unit * nat) := [(vu128 7, 0%nat); (vbool true, 0%nat); (unnamed_composite [vu128 1; vu128 2], 5%nat)].
Example C101_log_demo : write_all demo_rt xdemo 9%nat log_jobs [99] = ([true; false; true], [99; 7; 8; 1; 2]) /\
  read_all demo_rt xdemo (fun _ => tt) 9%nat [0%nat; 5%nat] [7; 8; 1; 2; 50] = ([vu128 7; unnamed_composite [vu128 1; vu128 2]], [50], None) /\
  read_all demo_rt xdemo (fun _ => tt) 9%nat [0%nat; 5%nat] [7; 8; 1] = ([vu128 7], [8; 1], Some ENotEnough).
Proof. repeat split. Qed.
Example C101_log_small : Forall (fun j => small (x_maxbits xdemo) (fst j)) log_jobs.
Proof.
  repeat constructor; cbn; try lia; intros bs H; inversion H; subst; try (match goal with Hb : is_bit _ _ |- _ => inversion Hb end);
      repeat match goal with Hb : Forall2 _ _ _ |- _ => inversion Hb; clear Hb; subst end; cbn; lia.
Qed.
Example C101_log_hypotheses : reg_ok demo_rt /\ names_uniform demo_rt.
Proof. split; [exact C25_demo_ok|exact C64_demo_uniform]. Qed.

(** ** A text of values, one per line *)
Theorem C101_lines : forall T U ind lead (vs : list (style * value T)) n, unicode_ok U -> ws ind -> ws lead -> Forall (fun sv => text_ok (is_ident U) (snd sv) = true) vs ->
  (length vs <= n)%nat ->
  exists text, print_lines U ind lead vs = Some text /\ parse_lines U n text = (map (fun sv => unsigned_form (snd sv)) vs, []).
Proof.
  intros T U ind lead vs n HU HI HL H. revert n. induction H as [|[st v] vs Hv _ IH]; intros n Hn.
  - exists []. split; [reflexivity|]. destruct n; reflexivity.
  - destruct n as [|n]; [cbn in Hn; lia|]. cbn [length] in Hn. destruct (IH n ltac:(lia)) as (text & E1 & E2). cbn [print_lines snd].
    destruct (C04_text_roundtrip T U ind lead st v (newline :: text) HU HI HL Hv) as (t & P1 & P2); [reflexivity|].
    rewrite P1, E1. eexists. split; [reflexivity|]. cbn [map snd parse_lines].
    destruct (t ++ newline :: text) as [|c r] eqn:EQ; [destruct t; discriminate|]. rewrite P2. rewrite N.eqb_refl, E2. reflexivity.
Qed.
Print Assumptions C101_lines.
(** But a cut text may be the text of another value. *)
Theorem C101_lines_cut_refuted : exists (v w : value unit) U n t, unicode_ok U /\ print_lines U (s2l "  ") [] [(Normal, v)] = Some t /\ from_str U (firstn n t) = (Ok w, []) /\ w <> v.
Proof.
  exists (vu128 123), (vu128 12), ascii_unicode, 2%nat, [49; 50; 51; 10]. split; [exact ascii_unicode_ok|]. split; [reflexivity|]. split; [vm_compute; reflexivity|discriminate].
Qed.
Print Assumptions C101_lines_cut_refuted.
