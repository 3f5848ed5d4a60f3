(** C43: the saved engine state is read back exactly, or not at all. *)
From Coq Require Import List Arith NArith Lia Bool.
Import ListNotations.
From Verif Require Import Bytes MetaRec_model MetaRec_spec MetaRec_proofs MetaRec_proofs2
  MetaRec_proofs3 MetaRec_proofs4.
Ltac Zify.zify_post_hook ::= idtac.

Lemma blk align : 4096%N = N.of_nat (N.to_nat 4096) /\ 28 <= blockSize align.
Proof.
  split; [reflexivity|]. unfold blockSize.
  assert (28 <= N.to_nat 4096) by (apply Nat.leb_le; vm_compute; reflexivity). lia.
Qed.

(** A save that reports success and whose writes succeeded is read back exactly:
    the same records in the same order, and nothing after them, provided the last
    block of the stream ends before the end of the reserved area. *)
Theorem C43_round_trip : forall dh hh align M orc dev rs st,
  let B := blockSize align in
  M <= length dev -> Forall (fun d => d <> []) rs ->
  persist dh hh B M orc dev rs = (true, st) -> all_ok (wlog st) ->
  roundUp B (end_pos B rs) < M ->
  reads_back dh hh B M (wdev st) rs.
Proof. intros dh hh align M orc dev rs st B. apply round_trip, blk. Qed.
Print Assumptions C43_round_trip.

(** Without failing writes, a save succeeds iff its records fit. *)
Theorem C43_save_succeeds_iff_fits : forall dh hh align M dev rs,
  let B := blockSize align in
  M <= length dev -> Forall (fun d => d <> []) rs ->
  ((exists st, persist dh hh B M nofail dev rs = (true, st)) <->
   end_pos B rs <= M /\ Forall okrec rs).
Proof.
  intros dh hh align M dev rs B HD F. split.
  - intros [st E]. eapply success_fits; eauto. apply blk.
  - intros [HE FO]. apply (fits_succeeds dh hh B (proj2 (blk align)) M nofail dev rs); auto.
Qed.
Print Assumptions C43_save_succeeds_iff_fits.

(** A failing write is reported, unless it is one of the last two. *)
Theorem C43_all_but_last_two_failed_writes_reported : forall dh hh align M orc dev rs st,
  let B := blockSize align in
  Forall (fun d => d <> []) rs -> persist dh hh B M orc dev rs = (true, st) ->
  exists l1 l2, wlog st = l2 ++ l1 /\ length l2 <= 2 /\ all_ok l1.
Proof. intros dh hh align M orc dev rs st B. apply only_last_two, blk. Qed.
Print Assumptions C43_all_but_last_two_failed_writes_reported.

(** A save that reports success changes nothing behind the reserved area. *)
Theorem C43_save_stays_inside : forall dh hh align M orc dev rs st,
  let B := blockSize align in
  (exists A x y, 28 <= A /\ B = x * A /\ M = y * A) ->
  Forall (fun d => d <> []) rs -> persist dh hh B M orc dev rs = (true, st) ->
  skipn M (wdev st) = skipn M dev.
Proof. intros dh hh align M orc dev rs st B. apply success_stays_inside, blk. Qed.
Print Assumptions C43_save_stays_inside.

(** Whatever the device holds, every record that reading returns lies on it intact,
    with its header and both hashes. *)
Theorem C43_read_only_intact_records : forall dh hh align M dev rfail n l st,
  let B := blockSize align in
  M <= length dev -> Forall is_byte dev ->
  readN dh hh B M dev rfail n (rinit B) = Some (l, st) ->
  forall d, In d l -> d <> [] /\
    exists p, p + length (enc dh hh d) <= M /\ slice dev p (length (enc dh hh d)) = enc dh hh d.
Proof.
  intros dh hh align M dev rfail n l st B HD FB E.
  eapply (readN_sound dh hh B (proj2 (blk align)) M dev HD rfail n); eauto. left. auto.
Qed.
Print Assumptions C43_read_only_intact_records.

(** After a successful invalidate nothing is found. *)
Theorem C43_invalidated_is_empty : forall dh hh align M orc dev dev',
  let B := blockSize align in
  M <= length dev -> invalidate B orc dev = (true, dev') ->
  isEnd hh B M dev' noreadfail (rinit B) = true /\
  readRecord dh hh B M dev' noreadfail (rinit B) = None.
Proof. intros dh hh align M orc dev dev' B. apply invalidated, blk. Qed.
Print Assumptions C43_invalidated_is_empty.

(** ** Non-vacuity: three records, the second longer than a block. *)
Section Ex.
Variables dh hh : list byte -> N.
Definition exRs : list (list byte) :=
  [[1;2;3]%N; repeat 7%N (N.to_nat 5000); repeat 9%N (N.to_nat 3000)].
Example C43_example : exists st,
  persist dh hh (blockSize 512) (N.to_nat 16384) nofail (zeros (N.to_nat 20000)) exRs = (true, st) /\
  all_ok (wlog st) /\ roundUp (blockSize 512) (end_pos (blockSize 512) exRs) < N.to_nat 16384.
Proof.
  assert (L : N.to_nat 16384 <= length (zeros (N.to_nat 20000))).
  { rewrite zeros_length. apply Nat.leb_le. vm_compute. reflexivity. }
  assert (F : Forall okrec exRs).
  { repeat constructor; try discriminate; try (intros X; vm_compute in X; discriminate X). }
  assert (F' : Forall (fun d => d <> []) exRs).
  { eapply Forall_impl; [|exact F]. intros a [X _]. exact X. }
  destruct (fits_succeeds dh hh (blockSize 512) (proj2 (blk 512)) (N.to_nat 16384) nofail
              (zeros (N.to_nat 20000)) exRs L F) as [st E].
  { apply Nat.leb_le. vm_compute. reflexivity. }
  exists st. split; [exact E|]. split.
  - eapply nofail_all_ok; [apply (proj2 (blk 512)) | exact nofail | exact L | exact F' | exact E].
  - apply Nat.ltb_lt. vm_compute. reflexivity.
Qed.
End Ex.

(** ** What does not hold *)

(** A save whose last block ends exactly at the end of the area reports success, no
    write fails, and still the last record is gone: the destructor compares with
    < where <= fits (RecordIO.cpp:77) and then zeroes that block. *)
Theorem C43_successful_save_is_readable_refuted : forall dh hh,
  ~ (forall align M dev rs st, let B := blockSize align in
       M <= length dev -> Forall (fun d => d <> []) rs ->
       persist dh hh B M nofail dev rs = (true, st) -> all_ok (wlog st) ->
       exists st', readN dh hh B M (wdev st) noreadfail (length rs) (rinit B) = Some (rs, st')).
Proof.
  intros dh hh H.
  assert (B29 : 29 <= blockSize 1).
  { apply Nat.leb_le. vm_compute. reflexivity. }
  set (B := blockSize 1) in *. set (r1 := repeat 1%N (B - 28)).
  assert (L1 : length r1 = B - 28) by apply repeat_length.
  assert (K1 : (N.of_nat (length r1) < two32)%N).
  { rewrite L1. vm_compute. reflexivity. }
  assert (L : 2 * B <= length (zeros (2 * B))) by (rewrite zeros_length; lia).
  destruct (lost_last dh hh B B29 (2 * B) eq_refl r1 L1 K1 (zeros (2 * B)) L) as (st & E & AO & R).
  destruct (H 1 (2 * B) (zeros (2 * B)) [r1; [1%N]] st) as [st' X]; auto.
  - constructor; [|constructor; [discriminate | constructor]].
    intros X. rewrite X in L1. cbn [length] in L1. lia.
  - fold B in X. cbn [length] in X. rewrite R in X. discriminate X.
Qed.
Print Assumptions C43_successful_save_is_readable_refuted.

(** The result of the destructor's writes is ignored: the save reports success and
    nothing can be read back. *)
Theorem C43_save_reports_failed_writes_refuted : forall dh hh,
  ~ (forall align M orc dev rs st, let B := blockSize align in
       M <= length dev -> Forall (fun d => d <> []) rs ->
       persist dh hh B M orc dev rs = (true, st) -> all_ok (wlog st)).
Proof.
  intros dh hh H.
  set (orc := fun n : nat => if n =? 0 then Some ([] : list byte) else None).
  assert (X : exists st, persist dh hh (blockSize 1) (N.to_nat 12288) orc (zeros (N.to_nat 12288))
                [[1%N]] = (true, st) /\ In (0, false) (wlog st)).
  { assert (Z : let p := persist dh hh (blockSize 1) (N.to_nat 12288) orc
                  (zeros (N.to_nat 12288)) [[1%N]] in (fst p, nth 1 (wlog (snd p)) (1, true)) =
                  (true, (0, false))) by (vm_compute; reflexivity).
    cbv zeta in Z.
    destruct (persist dh hh (blockSize 1) (N.to_nat 12288) orc (zeros (N.to_nat 12288)) [[1%N]])
      as [b st]. exists st. cbn [fst snd] in Z. injection Z as -> Z. split; [reflexivity|].
    rewrite <- Z. destruct (nth_in_or_default 1 (wlog st) (1, true)) as [D|D]; [exact D|].
    rewrite D in Z. discriminate Z. }
  destruct X as (st & E & Hin).
  pose proof (H 1 (N.to_nat 12288) orc (zeros (N.to_nat 12288)) [[1%N]] st) as Y.
  cbv zeta in Y.
  assert (AO : all_ok (wlog st)).
  { apply Y; [rewrite zeros_length; lia | constructor; [discriminate | constructor] | exact E]. }
  discriminate (AO _ Hin).
Qed.
Print Assumptions C43_save_reports_failed_writes_refuted.

(** A save that fails because the records do not fit may overwrite cached data
    behind the area, when its size is a multiple of the I/O unit but not of 4096. *)
Theorem C43_failed_save_stays_inside_refuted : forall dh hh,
  ~ (forall align M dev rs st, let B := blockSize align in
       M <= length dev -> (exists x y, B = x * align /\ M = y * align) ->
       Forall (fun d => d <> []) rs ->
       persist dh hh B M nofail dev rs = (false, st) -> skipn M (wdev st) = skipn M dev).
Proof.
  intros dh hh H.
  set (M := N.to_nat 4608). set (dev := repeat 7%N (N.to_nat 8192)).
  set (rs := [repeat 1%N (N.to_nat 4068); repeat 2%N 100; repeat 3%N (N.to_nat 1000)]).
  assert (X : exists st, persist dh hh (blockSize 512) M nofail dev rs = (false, st) /\
                nth (N.to_nat 5000) (wdev st) 9%N = 0%N).
  { assert (Z : let p := persist dh hh (blockSize 512) M nofail dev rs in
                  (fst p, nth (N.to_nat 5000) (wdev (snd p)) 9%N) = (false, 0%N))
      by (vm_compute; reflexivity).
    cbv zeta in Z. destruct (persist dh hh (blockSize 512) M nofail dev rs) as [b st].
    exists st. cbn [fst snd] in Z. injection Z as -> Z. auto. }
  destruct X as (st & E & N0).
  assert (Y : skipn M (wdev st) = skipn M dev).
  { apply (H 512 M dev rs st).
    - unfold dev. rewrite repeat_length. apply Nat.leb_le. vm_compute. reflexivity.
    - exists 8, 9. split; apply Nat.eqb_eq; vm_compute; reflexivity.
    - repeat constructor; discriminate.
    - exact E. }
  assert (Z : nth (N.to_nat 5000) (wdev st) 9%N = nth (N.to_nat 5000) dev 9%N).
  { replace (N.to_nat 5000) with (M + N.to_nat 392) by (apply Nat.eqb_eq; vm_compute; reflexivity).
    assert (G : forall (l : list byte) n m, nth (n + m) l 9%N = nth m (skipn n l) 9%N).
    { clear. intros l n; revert l; induction n as [|n IH]; intros [|a l] m; cbn; auto. destruct m; reflexivity. }
    rewrite !G. now rewrite Y. }
  rewrite N0 in Z. vm_compute in Z. discriminate Z.
Qed.
Print Assumptions C43_failed_save_stays_inside_refuted.
