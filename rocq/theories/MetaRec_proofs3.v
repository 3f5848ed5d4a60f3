(** The reader. *)
From Coq Require Import List Arith NArith Lia Bool.
Import ListNotations.
From Verif Require Import Bytes MetaRec_model MetaRec_spec MetaRec_proofs MetaRec_proofs2.
Ltac Zify.zify_post_hook ::= idtac.

Section Rec.
Variable dh : list byte -> N.
Variable hh : list byte -> N.
Variable B : nat.
Hypothesis HB : 28 <= B.
Variable M : nat.
Variable dev : list byte.
Hypothesis HD : M <= length dev.

Definition rrep (pos : nat) (st : rst) : Prop :=
  exists k, roff st = k * B + B /\ pos = k * B + ridx st /\ ridx st <= B /\
            rbuf st = slice dev (k * B) B /\ k * B + B <= M.
Definition rtop (pos : nat) (st : rst) : Prop :=
  (roff st = 0 /\ ridx st = B /\ pos = 0) \/ (rrep pos st /\ 0 < ridx st).

Lemma rinit_top : rtop 0 (rinit B).
Proof. left. auto. Qed.

Lemma rnext_top pos st : rtop pos st ->
  (roundUp B (pos + pad B pos + 1) <= M ->
     exists st1, rnext B M dev noreadfail st = Some st1 /\ rrep (pos + pad B pos) st1 /\
                 ridx st1 + 28 <= B) /\
  (M < roundUp B (pos + pad B pos + 1) -> rnext B M dev noreadfail st = None).
Proof.
  intros T. unfold rnext, hsize, noreadfail.
  destruct T as [(R & I & ->)|[(k & R & P & I & Bu & KM) Z]].
  - unfold pad. rewrite roundUp_0 by lia. change (0 + (if 0 - 0 <? 28 then 0 - 0 else 0) + 1) with 1.
    assert (R1 : roundUp B 1 = B).
    { replace 1 with (0 * B + 1) by lia. rewrite roundUp_in by lia. lia. }
    rewrite R1. destruct (Nat.ltb_spec B (ridx st + 28)); [|lia]. rewrite R.
    destruct (Nat.ltb_spec M (0 + B)) as [Lt|Ge]; split; intros H0; try lia.
    + reflexivity.
    + eexists. split; [reflexivity|]. cbn [ridx]. split; [|lia].
      exists 0. cbn [roff ridx rbuf Nat.mul Nat.add]. repeat split; try lia.
  - unfold pad. rewrite P, roundUp_in by lia.
    replace (k * B + B - (k * B + ridx st)) with (B - ridx st) by lia.
    destruct (Nat.ltb_spec (B - ridx st) 28) as [Lt|Ge];
      destruct (Nat.ltb_spec B (ridx st + 28)) as [Lt'|Ge']; try lia.
    + replace (k * B + ridx st + (B - ridx st) + 1) with ((k + 1) * B + 1) by lia.
      rewrite roundUp_in by lia. rewrite R.
      destruct (Nat.ltb_spec M (k * B + B + B)) as [Lm|Gm]; split; intros H0; try lia.
      * reflexivity.
      * eexists. split; [reflexivity|]. cbn [ridx]. split; [|lia].
        exists (k + 1). cbn [roff ridx rbuf]. repeat split; try lia.
        f_equal. lia.
    + replace (k * B + ridx st + 0 + 1) with (k * B + (ridx st + 1)) by lia.
      rewrite roundUp_in by lia. split; intros H0; [|lia].
      exists st. split; [reflexivity|]. split; [|lia]. exists k. repeat split; auto; lia.
Qed.

Lemma rcopy_ok fuel : forall pos st size acc,
  rrep pos st -> ridx st < B -> 0 < size -> size <= fuel -> roundUp B (pos + size) <= M ->
  exists st', rcopy B M dev noreadfail fuel st size acc = Some (acc ++ slice dev pos size, st') /\
              rrep (pos + size) st' /\ 0 < ridx st'.
Proof.
  induction fuel as [|fuel IH]; intros pos st size acc R I Sz Fu HM; [lia|]. cbn [rcopy].
  set (cp := Nat.min (B - ridx st) size).
  destruct R as (k & R & P & _ & Bu & KM).
  assert (CP : 0 < cp /\ cp <= size /\ ridx st + cp <= B) by (unfold cp; lia).
  assert (SL : slice (rbuf st) (ridx st) cp = slice dev pos cp).
  { rewrite Bu, slice_slice by lia. f_equal. lia. }
  rewrite SL. destruct (Nat.eqb_spec (size - cp) 0) as [Z|Z].
  - replace size with cp by lia. eexists. split; [reflexivity|]. cbn [ridx]. split; [|lia].
    exists k. cbn [roff ridx rbuf]. repeat split; auto; lia.
  - assert (CB : ridx st + cp = B) by (unfold cp in *; lia).
    assert (GE : k * B + B + B <= M).
    { assert (roundUp B ((k + 1) * B + 1) <= roundUp B (pos + size))
        by (apply roundUp_mono; lia).
      rewrite roundUp_in in H by lia. lia. }
    unfold rnext, noreadfail, hsize. cbn [ridx roff rbuf].
    destruct (Nat.ltb_spec B (ridx st + cp + 28)); [|lia].
    destruct (Nat.ltb_spec M (roff st + B)); [lia|].
    destruct (IH (pos + cp) (mkR (roff st + B) 0 (slice dev (roff st) B)) (size - cp)
                 (acc ++ slice dev pos cp)) as (st' & E & R' & I').
    + exists (k + 1). cbn [roff ridx rbuf]. repeat split; try lia. f_equal. lia.
    + cbn [ridx]. lia.
    + lia.
    + lia.
    + replace (pos + cp + (size - cp)) with (pos + size) by lia. exact HM.
    + exists st'. unfold noreadfail in E. rewrite E. rewrite <- app_assoc, slice_plus.
      replace (cp + (size - cp)) with size by lia.
      replace (pos + cp + (size - cp)) with (pos + size) in R' by lia. auto.
Qed.

Lemma readRecord_ok S st d : rtop (length S) st -> okrec d ->
  firstn (length (push dh hh B S d)) dev = push dh hh B S d ->
  roundUp B (length (push dh hh B S d)) <= M ->
  exists st', readRecord dh hh B M dev noreadfail st = Some (d, st') /\
              rtop (length (push dh hh B S d)) st'.
Proof.
  intros T [N K] F HM. set (pos := length S) in *. set (p := pos + pad B pos).
  assert (LP : length (push dh hh B S d) = p + (28 + length d)).
  { unfold push, p, pos. rewrite !app_length, zeros_length, enc_length. lia. }
  assert (SL : slice dev p (28 + length d) = enc dh hh d).
  { rewrite LP in F. rewrite <- (slice_firstn dev p (28 + length d) (p + (28 + length d))) by lia.
    rewrite F. unfold push. rewrite app_assoc.
    rewrite <- (app_nil_r (enc dh hh d)) at 1. apply slice_app_mid.
    - rewrite app_length, zeros_length. reflexivity.
    - now rewrite enc_length. }
  unfold readRecord.
  destruct (rnext_top pos st T) as [NX _]. destruct NX as (st1 & E1 & R1 & I1).
  { etransitivity; [|exact HM]. apply roundUp_mono; [lia|]. rewrite LP. fold p. lia. }
  rewrite E1. fold p in R1.
  set (h := slice (rbuf st1) (ridx st1) (B - ridx st1)).
  assert (HH : slice h 0 28 = hdr dh hh d).
  { unfold h. rewrite slice_slice by lia. rewrite Nat.add_0_r.
    destruct R1 as (k & R & P & _ & Bu & KM). rewrite Bu, slice_slice by lia. rewrite <- P.
    replace (slice dev p 28) with (slice (slice dev p (28 + length d)) 0 28)
      by (rewrite slice_slice by lia; f_equal; lia).
    rewrite SL, slice_hdr by lia. rewrite <- (hdr_length dh hh d). apply firstn_all. }
  rewrite (validHeader_hdr dh hh h d HH), (hlen_hdr dh hh h d HH K).
  unfold hsize.
  destruct (rcopy_ok (Datatypes.S (28 + length d)) p st1 (28 + length d) [] R1)
    as (st' & E & R' & I'); [lia | lia | lia | rewrite <- LP; exact HM |].
  rewrite E. cbn [app]. rewrite SL, (validData_enc dh hh d N K).
  exists st'. split.
  - assert (SK : skipn 28 (enc dh hh d) = d).
    { unfold enc. rewrite skipn_app, (skipn_all2 (hdr dh hh d)) by (rewrite hdr_length; lia).
      rewrite hdr_length. reflexivity. }
    rewrite SK. reflexivity.
  - right. rewrite LP. auto.
Qed.

Lemma readRecord_zero pos st : rtop pos st ->
  (roundUp B (pos + pad B pos + 1) <= M -> slice dev (pos + pad B pos) 4 = zeros 4) ->
  readRecord dh hh B M dev noreadfail st = None.
Proof.
  intros T Z. unfold readRecord. destruct (rnext_top pos st T) as [A C].
  destruct (Nat.le_gt_cases (roundUp B (pos + pad B pos + 1)) M) as [L|G].
  - destruct (A L) as (st1 & E & R & I). rewrite E.
    rewrite validHeader_zero; [reflexivity|].
    rewrite slice_slice by lia. rewrite Nat.add_0_r.
    destruct R as (k & R & P & _ & Bu & KM). rewrite Bu, slice_slice by lia.
    rewrite <- P. auto.
  - rewrite (C G). reflexivity.
Qed.

Lemma readN_ok rs : forall S st, rtop (length S) st -> Forall okrec rs ->
  firstn (length (stream dh hh B S rs)) dev = stream dh hh B S rs ->
  roundUp B (length (stream dh hh B S rs)) <= M ->
  exists st', readN dh hh B M dev noreadfail (length rs) st = Some (rs, st') /\
              rtop (length (stream dh hh B S rs)) st'.
Proof.
  induction rs as [|d rs IH]; intros S st T F P HM; cbn [length readN].
  - exists st. cbn [stream fold_left] in *. auto.
  - apply Forall_cons_iff in F as [F1 F2]. cbn [stream fold_left] in *.
    fold (stream dh hh B (push dh hh B S d) rs) in *.
    destruct (stream_pre dh hh B rs (push dh hh B S d)) as [X EX].
    destruct (readRecord_ok S st d T F1) as (st1 & E1 & T1).
    + rewrite EX in P. apply (f_equal (firstn (length (push dh hh B S d)))) in P.
      rewrite firstn_firstn, app_length, Nat.min_l in P by lia.
      rewrite P, firstn_app, firstn_all, Nat.sub_diag. cbn [firstn]. apply app_nil_r.
    + etransitivity; [|exact HM]. apply roundUp_mono; [lia|]. rewrite EX, app_length. lia.
    + rewrite E1. destruct (IH _ _ T1 F2 P HM) as (st' & E & T'). rewrite E. eauto.
Qed.

(** ** A record that is returned lies on the device, intact *)
Variable rfail : nat -> bool.

Definition rany (st : rst) : Prop :=
  (roff st = 0 /\ ridx st = B) \/
  (exists k, roff st = k * B + B /\ ridx st <= B /\ rbuf st = slice dev (k * B) B /\ k * B + B <= M).

Lemma rnext_any st st1 : rany st -> rnext B M dev rfail st = Some st1 ->
  exists k, roff st1 = k * B + B /\ ridx st1 <= B /\ rbuf st1 = slice dev (k * B) B /\
            k * B + B <= M /\ ridx st1 + 28 <= B.
Proof.
  unfold rnext, hsize. intros A.
  destruct (Nat.ltb_spec B (ridx st + 28)) as [Lt|Ge].
  - destruct (Nat.ltb_spec M (roff st + B)) as [Lm|Gm]; [discriminate|].
    destruct (rfail (roff st)); [discriminate|]. intros E. injection E as <-.
    cbn [roff ridx rbuf]. destruct A as [[A1 A2]|(k & A1 & A2 & A3 & A4)].
    + exists 0. rewrite A1 in *. repeat split; lia.
    + exists (k + 1). rewrite A1 in *.
      split; [lia|]. split; [lia|]. split; [f_equal; lia|]. split; lia.
  - intros E. injection E as <-. destruct A as [[A1 A2]|(k & A1 & A2 & A3 & A4)]; [lia|].
    exists k. auto.
Qed.

Lemma rcopy_any fuel : forall pos st size acc r st',
  rrep pos st -> rcopy B M dev rfail fuel st size acc = Some (r, st') ->
  r = acc ++ slice dev pos size /\ rrep (pos + size) st'.
Proof.
  induction fuel as [|fuel IH]; intros pos st size acc r st' R; cbn [rcopy]; [discriminate|].
  set (cp := Nat.min (B - ridx st) size).
  destruct R as (k & R & P & I & Bu & KM).
  assert (CP : cp <= size /\ ridx st + cp <= B) by (unfold cp; lia).
  assert (SL : slice (rbuf st) (ridx st) cp = slice dev pos cp).
  { rewrite Bu, slice_slice by lia. f_equal. lia. }
  rewrite SL. destruct (Nat.eqb_spec (size - cp) 0) as [Z|Z].
  - intros E. injection E as <- <-. replace size with cp by lia. split; [reflexivity|].
    exists k. cbn [roff ridx rbuf]. repeat split; auto; lia.
  - assert (CB : ridx st + cp = B) by (unfold cp in *; lia).
    unfold rnext, hsize. cbn [ridx roff rbuf].
    destruct (Nat.ltb_spec B (ridx st + cp + 28)); [|lia].
    destruct (Nat.ltb_spec M (roff st + B)); [discriminate|].
    destruct (rfail (roff st)); [discriminate|]. intros E.
    assert (R2 : rrep (pos + cp) (mkR (roff st + B) 0 (slice dev (roff st) B))).
    { exists (k + 1). cbn [roff ridx rbuf]. repeat split; try lia. f_equal. lia. }
    destruct (IH _ _ _ _ _ _ R2 E) as [-> R3].
    replace (pos + cp + (size - cp)) with (pos + size) in R3 by lia. split; [|exact R3].
    rewrite <- app_assoc, slice_plus. f_equal. f_equal. lia.
Qed.

Lemma le_enc_dec l : Forall is_byte l -> le_enc (length l) (le_dec l) = l.
Proof.
  induction l as [|b l IH]; intros F; [reflexivity|]. apply Forall_cons_iff in F as [F1 F2].
  cbn [length le_enc le_dec]. unfold is_byte in F1.
  rewrite (N.mul_comm 256), N.mod_add, N.div_add by lia.
  rewrite N.mod_small, N.div_small by exact F1. cbn [N.add]. rewrite (IH F2). reflexivity.
Qed.

Lemma slice_Forall (P : byte -> Prop) l a b : Forall P l -> Forall P (slice l a b).
Proof.
  intros F. unfold slice. apply Forall_forall. intros x X. rewrite Forall_forall in F.
  apply F. rewrite <- (firstn_skipn a l). apply in_or_app. right.
  rewrite <- (firstn_skipn b (skipn a l)). apply in_or_app. left. exact X.
Qed.

Lemma readRecord_sound st d st' : Forall is_byte dev -> rany st ->
  readRecord dh hh B M dev rfail st = Some (d, st') ->
  rany st' /\ d <> [] /\ exists p, p + length (enc dh hh d) <= M /\
    slice dev p (length (enc dh hh d)) = enc dh hh d.
Proof.
  intros FB A. unfold readRecord.
  destruct (rnext B M dev rfail st) as [st1|] eqn:E1; [|discriminate].
  destruct (rnext_any _ _ A E1) as (k & R1 & R2 & R3 & R4 & R5).
  set (h := slice (rbuf st1) (ridx st1) (B - ridx st1)).
  destruct (validHeader hh h) eqn:VH; [|discriminate]. unfold hsize.
  set (n := hlen h).
  destruct (rcopy B M dev rfail (Datatypes.S (28 + n)) st1 (28 + n) []) as [[r st2]|] eqn:E2;
    [|discriminate].
  destruct (validData dh r) eqn:VD; [|discriminate]. intros E. injection E as <- <-.
  set (p := k * B + ridx st1).
  assert (R : rrep p st1) by (exists k; auto).
  destruct (rcopy_any _ _ _ _ _ _ _ R E2) as [Er R'].
  cbn [app] in Er.
  assert (PM : p + (28 + n) <= M).
  { destruct R' as (k' & _ & -> & I' & _ & KM). lia. }
  assert (Lr : length r = 28 + n) by (rewrite Er; apply slice_length; lia).
  assert (HS : forall a b, a + b <= 28 -> slice h a b = slice r a b).
  { intros a b Hab. unfold h. rewrite slice_slice by lia. rewrite R3, slice_slice by lia.
    rewrite Er, slice_slice by lia. f_equal. unfold p. lia. }
  unfold validHeader in VH. rewrite !andb_true_iff in VH.
  destruct VH as ((((V0 & V1) & V2) & V3) & V4).
  apply bytes_eqb_spec in V1, V2, V3, V4. rewrite HS in V1, V2, V3 by lia.
  rewrite (HS 24 4), (HS 0 24) in V4 by lia.
  unfold validData in VD. rewrite !andb_true_iff in VD. destruct VD as ((D0 & D1) & D2).
  apply bytes_eqb_spec in D2. apply Nat.ltb_lt in D0. unfold hsize in *.
  assert (Hn : hlen r = n) by (unfold n, hlen; rewrite HS by lia; reflexivity).
  rewrite Hn in *.
  assert (Sd : slice r 28 n = skipn 28 r).
  { unfold slice. apply firstn_all2. rewrite skipn_length. lia. }
  rewrite Sd in D2. set (d := skipn 28 r) in *.
  assert (Ld : length d = n) by (unfold d; rewrite skipn_length; lia).
  assert (Fr : Forall is_byte r) by (rewrite Er; apply slice_Forall, FB).
  assert (V12 : slice r 12 4 = le_enc 4 (N.of_nat (length d))).
  { rewrite Ld. unfold n, hlen. rewrite HS, Nnat.N2Nat.id by lia.
    assert (L4 : length (slice r 12 4) = 4) by (apply slice_length; lia).
    pose proof (le_enc_dec (slice r 12 4) (slice_Forall _ r 12 4 Fr)) as LE.
    unfold byte in LE, L4; rewrite L4 in LE. symmetry. exact LE. }
  assert (H24 : slice r 0 24 = hdr0 dh d).
  { unfold hdr0. rewrite <- V1, <- V2, <- V3, <- V12, <- D2.
    rewrite !slice_plus. reflexivity. }
  assert (ER : r = enc dh hh d).
  { unfold enc, hdr. rewrite <- H24, <- V4, slice_plus. change (24 + 4) with 28.
    rewrite <- Sd, slice_plus, <- Lr. symmetry. unfold slice. cbn [skipn]. apply firstn_all. }
  split; [|split].
  - right. destruct R' as (k' & Q1 & Q2 & Q3 & Q4 & Q5). exists k'. auto.
  - intros X. apply (f_equal (@length _)) in X. change (length d = 0) in X. lia.
  - assert (LE : length (enc dh hh d) = 28 + n) by (rewrite enc_length, Ld; reflexivity).
    assert (XX : exists p0, p0 + length (enc dh hh d) <= M /\
              slice dev p0 (length (enc dh hh d)) = enc dh hh d).
    { exists p. rewrite LE. split; [exact PM|]. rewrite <- Er. exact ER. }
    exact XX.
Qed.

Lemma readN_sound n : forall st l st', Forall is_byte dev -> rany st ->
  readN dh hh B M dev rfail n st = Some (l, st') ->
  forall d, In d l -> d <> [] /\ exists p, p + length (enc dh hh d) <= M /\
    slice dev p (length (enc dh hh d)) = enc dh hh d.
Proof.
  induction n as [|n IH]; intros st l st' FB A; cbn [readN].
  - intros E. injection E as <- <-. intros d [].
  - destruct (readRecord dh hh B M dev rfail st) as [[d st1]|] eqn:E1; [|discriminate].
    destruct (readRecord_sound _ _ _ FB A E1) as (A1 & X).
    destruct (readN dh hh B M dev rfail n st1) as [[l2 st2]|] eqn:E2; [|discriminate].
    intros E. injection E as <- <-. intros d' [<-|Hin]; [exact X|].
    exact (IH _ _ _ FB A1 E2 d' Hin).
Qed.

End Rec.
