(** Writer and reader together. *)
From Coq Require Import List Arith NArith Lia Bool.
Import ListNotations.
From Verif Require Import Bytes MetaRec_model MetaRec_spec MetaRec_proofs MetaRec_proofs2
  MetaRec_proofs3.
Ltac Zify.zify_post_hook ::= idtac.

Section Rec.
Variable dh : list byte -> N.
Variable hh : list byte -> N.
Variable B : nat.
Hypothesis HB : 28 <= B.
Variable M : nat.
Variable orc : nat -> option (list byte).
Variable dev : list byte.

Lemma stream_end rs : length (stream dh hh B [] rs) = end_pos B rs.
Proof. rewrite stream_length by exact HB. reflexivity. Qed.

Lemma round_trip rs st : M <= length dev -> Forall (fun d => d <> []) rs ->
  persist dh hh B M orc dev rs = (true, st) -> all_ok (wlog st) ->
  roundUp B (end_pos B rs) < M ->
  reads_back dh hh B M (wdev st) rs.
Proof.
  intros HD F E AO HE. unfold persist in E.
  destruct (writeAll dh hh B M orc (winit B dev) rs) as [ok st1] eqn:E1.
  injection E as -> <-.
  destruct (winit_rep dh hh B HB M orc dev) as [R0 T0].
  destruct (writeAll_ok dh hh B HB M orc dev rs [] _ _ R0 T0 (Nat.le_0_l _) F E1)
    as (R1 & T1 & L1 & K1).
  rewrite <- stream_end in HE. set (S := stream dh hh B [] rs) in *.
  pose proof (destroy_ok dh hh B HB M orc dev S st1 R1 T1 HE HD AO) as DK.
  cbv zeta in DK. set (d := wdev (destroy B M orc st1)) in *. set (E := roundUp B (length S)) in *.
  destruct DK as (DL & DF & DZ).
  pose proof (roundUp_ge B (length S) ltac:(lia)) as RG. fold E in RG.
  assert (HD' : M <= length d) by lia.
  assert (FS : firstn (length S) d = S).
  { replace (firstn (length S) d) with (firstn (length S) (firstn E d))
      by (rewrite firstn_firstn, Nat.min_l by lia; reflexivity).
    rewrite DF, firstn_app, firstn_all, Nat.sub_diag. cbn [firstn]. apply app_nil_r. }
  destruct (readN_ok dh hh B HB M d HD' rs [] (rinit B) (rinit_top B M d) K1 FS)
    as (st' & RN & RT); [fold S; fold E; lia|].
  exists st'. split; [exact RN|]. split.
  - apply (readRecord_zero dh hh B HB M d HD' (length S) st' RT).
    unfold pad. fold E. destruct (Nat.ltb_spec (E - length S) 28) as [Lt|Ge].
    + replace (length S + (E - length S)) with E by lia. intros HM.
      destruct (roundUp_form B (length S)) as [k K]. fold E in K.
      rewrite K in HM. rewrite roundUp_in in HM by lia. rewrite <- K in HM.
      rewrite <- (slice_zeros B 0 4) by lia. rewrite <- (DZ HM).
      rewrite slice_slice by lia. f_equal. lia.
    + intros _. rewrite Nat.add_0_r.
      rewrite <- (slice_firstn d (length S) 4 E) by lia. rewrite DF.
      rewrite slice_app_r by lia. rewrite Nat.sub_diag. apply slice_zeros. lia.
  - intros N. destruct rs as [|x rs]; [congruence|].
    unfold isEnd, noreadfail, rinit. cbn [roff].
    destruct (stream_pre dh hh B rs (push dh hh B [] x)) as [X EX].
    assert (ES : S = enc dh hh x ++ X).
    { unfold S. cbn [stream fold_left]. unfold stream in EX. rewrite EX. f_equal.
      unfold push, pad. cbn [length app]. rewrite roundUp_0 by lia. reflexivity. }
    assert (L28 : 28 <= length S) by (rewrite ES, app_length, enc_length; lia).
    assert (EB : B <= E).
    { unfold E. pose proof (roundUp_mono B 1 (length S) ltac:(lia) ltac:(lia)) as RM.
      assert (R1' : roundUp B 1 = B).
      { replace 1 with (0 * B + 1) by lia. rewrite roundUp_in by lia. lia. }
      lia. }
    destruct (Nat.ltb_spec M (0 + B)) as [Lt|Ge]; [lia|].
    rewrite (validHeader_hdr dh hh _ x); [reflexivity|].
    rewrite slice_slice by lia. rewrite <- (slice_firstn d (0 + 0) 28 (length S)) by lia.
    rewrite FS, ES. cbn [Nat.add]. rewrite slice_app_l by (rewrite enc_length; lia).
    rewrite slice_hdr by lia. rewrite <- (hdr_length dh hh x). apply firstn_all.
Qed.

Lemma fits_succeeds rs : M <= length dev -> Forall okrec rs -> end_pos B rs <= M ->
  exists st, persist dh hh B M nofail dev rs = (true, st).
Proof.
  intros HD F HE. destruct (winit_rep dh hh B HB M orc dev) as [R0 T0]. unfold persist.
  rewrite <- stream_end in HE.
  destruct (writeAll_fits dh hh B HB M nofail dev eq_refl rs [] _ HD R0 T0 F HE) as [st1 E1].
  rewrite E1. eauto.
Qed.

Lemma success_fits rs st : Forall (fun d => d <> []) rs ->
  persist dh hh B M orc dev rs = (true, st) -> end_pos B rs <= M /\ Forall okrec rs.
Proof.
  intros F E. unfold persist in E.
  destruct (writeAll dh hh B M orc (winit B dev) rs) as [ok st1] eqn:E1. injection E as -> <-.
  destruct (winit_rep dh hh B HB M orc dev) as [R0 T0].
  destruct (writeAll_ok dh hh B HB M orc dev rs [] _ _ R0 T0 (Nat.le_0_l _) F E1)
    as (R1 & T1 & L1 & K1).
  rewrite stream_end in L1. auto.
Qed.

Lemma success_stays_inside rs st : (exists A x y, 28 <= A /\ B = x * A /\ M = y * A) ->
  Forall (fun d => d <> []) rs ->
  persist dh hh B M orc dev rs = (true, st) ->
  skipn M (wdev st) = skipn M dev.
Proof.
  intros Al F E. unfold persist in E.
  destruct (writeAll dh hh B M orc (winit B dev) rs) as [ok st1] eqn:E1. injection E as -> <-.
  destruct (winit_rep dh hh B HB M orc dev) as [R0 T0].
  destruct (writeAll_ok dh hh B HB M orc dev rs [] _ _ R0 T0 (Nat.le_0_l _) F E1)
    as (R1 & T1 & L1 & K1).
  eapply destroy_out; eauto.
Qed.

Lemma log_nofail st off bs ok st' : devWrite nofail st off bs = (ok, st') ->
  off + length bs <= length (wdev st) -> ok = true.
Proof.
  unfold devWrite, nofail. intros E H.
  destruct (Nat.leb_spec (off + length bs) (length (wdev st))); [|lia].
  cbn [fst snd] in E. congruence.
Qed.

Lemma invalidated d' : M <= length dev -> invalidate B orc dev = (true, d') ->
  isEnd hh B M d' noreadfail (rinit B) = true /\
  readRecord dh hh B M d' noreadfail (rinit B) = None.
Proof.
  intros HD E. unfold invalidate in E.
  destruct (devWrite orc (winit B dev) 0 (zeros B)) as [ok st] eqn:E1. injection E as -> <-.
  apply devWrite_true in E1 as [Fit ->]. cbn [winit wdev] in *. rewrite zeros_length in Fit.
  assert (Z : slice (splice dev 0 (zeros B)) 0 B = zeros B).
  { pose proof (slice_splice dev (zeros B) 0 ltac:(lia)) as Z. now rewrite zeros_length in Z. }
  assert (HD' : M <= length (splice dev 0 (zeros B))) by (rewrite splice_length; rewrite ?zeros_length; lia).
  split.
  - unfold isEnd, rinit, noreadfail. cbn [roff]. destruct (M <? 0 + B); [reflexivity|].
    rewrite Z, validHeader_zero; [reflexivity|]. apply slice_zeros. lia.
  - apply (readRecord_zero dh hh B HB M _ HD' 0 (rinit B)); [apply rinit_top|].
    unfold pad. rewrite roundUp_0 by lia. cbn [Nat.sub Nat.ltb Nat.leb Nat.add]. intros _.
    rewrite <- (slice_zeros B 0 4) by lia. rewrite <- Z at 2. rewrite slice_slice by lia. reflexivity.
Qed.


Lemma only_last_two rs st : Forall (fun d => d <> []) rs ->
  persist dh hh B M orc dev rs = (true, st) ->
  exists l1 l2, wlog st = l2 ++ l1 /\ length l2 <= 2 /\ all_ok l1.
Proof.
  intros F E. unfold persist in E.
  destruct (writeAll dh hh B M orc (winit B dev) rs) as [ok st1] eqn:E1. injection E as -> <-.
  destruct (winit_rep dh hh B HB M orc dev) as [R0 T0].
  destruct (writeAll_ok dh hh B HB M orc dev rs [] _ _ R0 T0 (Nat.le_0_l _) F E1)
    as (R1 & T1 & L1 & K1).
  pose proof (w_log _ _ _ _ _ R1) as AL. unfold destroy.
  destruct (devWrite orc st1 (woff st1) (firstn (widx st1) (wbuf st1) ++ zeros (B - widx st1)))
    as [ok1 s1] eqn:D1. cbn [snd].
  apply devWrite_frame in D1 as (_ & _ & _ & W1 & _).
  set (s2 := if 0 <? widx st1 then if woff st1 + B <? M
         then mkW (wdev s1) (woff st1 + B) (widx st1) (wbuf st1) (wlog s1) else st1 else st1).
  assert (X : exists l2, wlog s2 = l2 ++ wlog st1 /\ length l2 <= 1).
  { unfold s2. destruct (0 <? widx st1); [destruct (woff st1 + B <? M)|].
    - cbn [wlog]. rewrite W1. exists [(woff st1, ok1)]. auto.
    - exists []. auto.
    - exists []. auto. }
  destruct X as (l2 & X1 & X2). exists (wlog st1).
  destruct (woff s2 + B <=? M); [|exists l2; split; [exact X1|]; split; [lia | exact AL]].
  destruct (devWrite orc s2 (woff s2) (zeros B)) as [ok2 s3] eqn:D2. cbn [snd].
  apply devWrite_frame in D2 as (_ & _ & _ & W2 & _).
  exists ((woff s2, ok2) :: l2). rewrite W2, X1. split; [reflexivity|]. cbn [length].
  split; [lia | exact AL].
Qed.

Lemma nofail_all_ok rs st : M <= length dev -> Forall (fun d => d <> []) rs ->
  persist dh hh B M nofail dev rs = (true, st) -> all_ok (wlog st).
Proof.
  intros HD F E. unfold persist in E.
  destruct (writeAll dh hh B M nofail (winit B dev) rs) as [ok st1] eqn:E1. injection E as -> <-.
  destruct (winit_rep dh hh B HB M orc dev) as [R0 T0].
  destruct (writeAll_ok dh hh B HB M nofail dev rs [] _ _ R0 T0 (Nat.le_0_l _) F E1)
    as (R1 & T1 & L1 & K1).
  pose proof (w_log _ _ _ _ _ R1) as AL. pose proof (w_dev _ _ _ _ _ R1) as DV. unfold destroy.
  destruct (devWrite nofail st1 (woff st1) (firstn (widx st1) (wbuf st1) ++ zeros (B - widx st1)))
    as [ok1 s1] eqn:D1. cbn [snd].
  assert (LB : length (firstn (widx st1) (wbuf st1) ++ zeros (B - widx st1)) = B).
  { rewrite app_length, firstn_length, zeros_length, (w_buf _ _ _ _ _ R1).
    pose proof (w_idx _ _ _ _ _ R1). lia. }
  set (s2 := if 0 <? widx st1 then if woff st1 + B <? M
         then mkW (wdev s1) (woff st1 + B) (widx st1) (wbuf st1) (wlog s1) else st1 else st1).
  assert (X : all_ok (wlog s2) /\ length (wdev s2) = length dev).
  { unfold s2. destruct (0 <? widx st1); [destruct (Nat.ltb_spec (woff st1 + B) M)|]; auto.
    cbn [wlog wdev]. pose proof (devWrite_frame _ _ _ _ _ _ D1) as (_ & _ & _ & W1 & W2 & _).
    rewrite W1, W2. split; [|exact DV]. intros w [<-|Hw]; [|apply AL, Hw]. cbn [snd].
    eapply log_nofail; [exact D1|]. rewrite LB. lia. }
  destruct X as [X1 X2].
  destruct (Nat.leb_spec (woff s2 + B) M); [|exact X1].
  destruct (devWrite nofail s2 (woff s2) (zeros B)) as [ok2 s3] eqn:D2. cbn [snd].
  pose proof (devWrite_frame _ _ _ _ _ _ D2) as (_ & _ & _ & W2 & _).
  rewrite W2. intros w [<-|Hw]; [|apply X1, Hw]. cbn [snd].
  eapply log_nofail; [exact D2|]. rewrite zeros_length. lia.
Qed.

End Rec.

(** A second record that starts in the last block of the area is lost. *)
Section Lost.
Variable dh : list byte -> N.
Variable hh : list byte -> N.
Variable B : nat.
Hypothesis HB : 29 <= B.
Variable M : nat.
Hypothesis HM : M = 2 * B.
Variable r1 : list byte.
Hypothesis H1 : length r1 = B - 28.
Hypothesis H1' : (N.of_nat (length r1) < two32)%N.
Variable dev : list byte.
Hypothesis HD : M <= length dev.

Lemma lost_last : exists st,
  persist dh hh B M nofail dev [r1; [1%N]] = (true, st) /\ all_ok (wlog st) /\
  readN dh hh B M (wdev st) noreadfail 2 (rinit B) = None.
Proof.
  assert (HB' : 28 <= B) by lia.
  assert (N1 : r1 <> []) by (intros ->; cbn [length] in H1; lia).
  assert (F : Forall okrec [r1; [1%N]]).
  { constructor; [split; assumption|]. constructor; [|constructor]. split; [discriminate | reflexivity]. }
  assert (F' : Forall (fun d => d <> []) [r1; [1%N]]).
  { constructor; [exact N1|]. constructor; [discriminate | constructor]. }
  assert (P1 : place B 0 (length r1) = B).
  { unfold place. rewrite roundUp_0 by lia. cbn [Nat.sub Nat.ltb Nat.leb]. lia. }
  assert (RB : roundUp B B = B).
  { replace B with (0 * B + B) at 2 by lia. rewrite roundUp_in by lia. lia. }
  assert (EP : end_pos B [r1; [1%N]] = B + 29).
  { unfold end_pos. cbn [fold_left]. rewrite P1. unfold place. rewrite RB, Nat.sub_diag.
    cbn [Nat.ltb Nat.leb length]. lia. }
  destruct (fits_succeeds dh hh B HB' M nofail dev [r1; [1%N]]) as [st E]; auto; [lia|].
  exists st. split; [exact E|].
  pose proof (nofail_all_ok dh hh B HB' M nofail dev _ _ HD F' E) as AO.
  split; [exact AO|]. unfold persist in E.
  destruct (writeAll dh hh B M nofail (winit B dev) [r1; [1%N]]) as [ok st1] eqn:E1.
  injection E as -> <-.
  destruct (winit_rep dh hh B HB' M nofail dev) as [R0 T0].
  destruct (writeAll_ok dh hh B HB' M nofail dev _ [] _ _ R0 T0 (Nat.le_0_l _) F' E1)
    as (R1 & T1 & L1 & K1).
  set (S := stream dh hh B [] [r1; [1%N]]) in *.
  assert (LS : length S = B + 29) by (unfold S; rewrite stream_end by exact HB'; exact EP).
  assert (W : woff st1 = B /\ 0 < widx st1).
  { pose proof (w_len _ _ _ _ _ R1) as L. pose proof (w_idx _ _ _ _ _ R1) as I.
    destruct (w_blk _ _ _ _ _ R1) as [k K]. destruct T1 as [->|T1]; [cbn in LS; lia|].
    split; [|exact T1]. destruct k as [|[|k]]; cbn [Nat.mul] in K; [| lia |].
    - lia.
    - exfalso. assert (Datatypes.S (Datatypes.S k) * B >= 2 * B) by (apply Nat.mul_le_mono_r; lia).
      cbn [Nat.mul] in H. lia. }
  destruct W as [W1 W2].
  pose proof (destroy_lost dh hh B HB' M nofail dev S st1 R1 W2 ltac:(lia) HD AO) as X.
  cbv zeta in X. set (d := wdev (destroy B M nofail st1)) in *.
  destruct X as (X1 & X2 & X3). replace (M - B) with B in X2, X3 by lia.
  cbn [readN].
  assert (PL : length (push dh hh B [] r1) = B).
  { rewrite push_length by exact HB'. exact P1. }
  assert (PS : firstn B S = push dh hh B [] r1).
  { destruct (stream_pre dh hh B [[1%N]] (push dh hh B [] r1)) as [Y EY].
    unfold S. change (stream dh hh B [] [r1; [1%N]]) with (stream dh hh B (push dh hh B [] r1) [[1%N]]).
    rewrite EY, firstn_app, PL, Nat.sub_diag, firstn_all2 by lia. cbn [firstn]. apply app_nil_r. }
  destruct (readRecord_ok dh hh B HB' M d ltac:(lia) [] (rinit B) r1) as (st' & RR & RT).
  - apply rinit_top.
  - split; assumption.
  - rewrite PL, X2. exact PS.
  - rewrite PL, RB. lia.
  - rewrite RR.
    rewrite (readRecord_zero dh hh B HB' M d ltac:(lia) _ st' RT); [reflexivity|].
    rewrite PL. unfold pad. rewrite RB, Nat.sub_diag. cbn [Nat.ltb Nat.leb]. intros _.
    rewrite Nat.add_0_r. rewrite <- (slice_zeros B 0 4) by lia. rewrite <- X3.
    rewrite slice_slice by lia. f_equal. lia.
Qed.
End Lost.
