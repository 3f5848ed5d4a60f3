(** The writer. *)
From Coq Require Import List Arith NArith Lia Bool.
Import ListNotations.
From Verif Require Import Bytes MetaRec_model MetaRec_spec MetaRec_proofs.
Ltac Zify.zify_post_hook ::= idtac.

Ltac wsimp := cbn [wdev woff widx wbuf wlog].

Section Rec.
Variable dh : list byte -> N.
Variable hh : list byte -> N.
Variable B : nat.
Hypothesis HB : 28 <= B.
Variable M : nat.
Variable orc : nat -> option (list byte).
Variable dev0 : list byte.

(** The metadata area ends at a multiple of an I/O unit. *)
Definition aligned : Prop := exists A x y, 28 <= A /\ B = x * A /\ M = y * A.

Record wrep (S : list byte) (st : wst) : Prop := mkWrep {
  w_len : length S = woff st + widx st;
  w_blk : exists k, woff st = k * B;
  w_idx : widx st <= B;
  w_buf : length (wbuf st) = B;
  w_dev : length (wdev st) = length dev0;
  w_pre : firstn (woff st) (wdev st) = firstn (woff st) S;
  w_cur : firstn (widx st) (wbuf st) = skipn (woff st) S;
  w_fit : woff st <= length dev0;
  w_out : aligned -> skipn M (wdev st) = skipn M dev0;
  w_log : all_ok (wlog st)
}.

Lemma devWrite_true st off bs st' : devWrite orc st off bs = (true, st') ->
  off + length bs <= length (wdev st) /\
  st' = mkW (splice (wdev st) off bs) (woff st) (widx st) (wbuf st) ((off, true) :: wlog st).
Proof.
  unfold devWrite. destruct (orc _) as [g|]; cbn [fst snd]; [discriminate|].
  destruct (Nat.leb_spec (off + length bs) (length (wdev st))) as [L|L]; cbn [fst snd];
    intros E; [|discriminate]. injection E as <-. auto.
Qed.

Lemma devWrite_frame st off bs ok st' : devWrite orc st off bs = (ok, st') ->
  woff st' = woff st /\ widx st' = widx st /\ wbuf st' = wbuf st /\
  wlog st' = (off, ok) :: wlog st /\ length (wdev st') = length (wdev st) /\
  (off <= length (wdev st) -> firstn off (wdev st') = firstn off (wdev st)) /\
  (forall n, off + length bs <= n -> skipn n (wdev st') = skipn n (wdev st)).
Proof. clear HB M dev0 dh hh B.
  unfold devWrite. destruct (orc _) as [g|]; cbn [fst snd].
  - destruct (Nat.leb_spec (off + length (firstn (length bs) g)) (length (wdev st))) as [L|L];
      cbn [fst snd]; intros E; injection E as <- <-; wsimp;
      (split; [reflexivity|]; split; [reflexivity|]; split; [reflexivity|]; split; [reflexivity|]).
    + split; [now apply splice_length|]. split; [intros; now apply firstn_splice_le|].
      intros n Hn. apply skipn_splice; [|exact L].
      assert (length (firstn (length bs) g) <= length bs) by apply firstn_le_length. lia.
    + auto.
  - destruct (Nat.leb_spec (off + length bs) (length (wdev st))) as [L|L];
      cbn [fst snd]; intros E; injection E as <- <-; wsimp;
      (split; [reflexivity|]; split; [reflexivity|]; split; [reflexivity|]; split; [reflexivity|]).
    + split; [now apply splice_length|]. split; [intros; now apply firstn_splice_le|].
      intros n Hn. now apply skipn_splice.
    + auto.
Qed.

Lemma aligned_fit k i : aligned -> B < i + 28 -> i <= B -> k * B + i <= M -> k * B + B <= M.
Proof.
  intros (A & x & y & HA & EB & EM) H1 H2 H3.
  assert (K : k * B + B = (k * x + x) * A) by (rewrite EB at 1 2; ring).
  assert (y * A + 28 > (k * x + x) * A) by lia.
  assert (k * x + x <= y).
  { destruct (Nat.le_gt_cases (k * x + x) y) as [L|L]; [exact L|].
    assert ((y + 1) * A <= (k * x + x) * A) by (apply Nat.mul_le_mono_r; lia). lia. }
  assert ((k * x + x) * A <= y * A) by (apply Nat.mul_le_mono_r; lia). lia.
Qed.

Lemma flush_ok S st st' : wrep S st -> B < widx st + 28 -> length S <= M ->
  flush B orc st = (true, st') ->
  wrep (S ++ zeros (B - widx st)) st' /\ widx st' = 0 /\ woff st' = woff st + B.
Proof.
  intros [L [k K] I Bu D P C F O AL] W HM. unfold flush.
  set (buf := splice (wbuf st) (widx st) (zeros (B - widx st))).
  assert (LB : length buf = B).
  { unfold buf. rewrite splice_length; [exact Bu|]. rewrite zeros_length. lia. }
  assert (EB : buf = skipn (woff st) S ++ zeros (B - widx st)).
  { unfold buf, splice. rewrite C, zeros_length. rewrite (skipn_all2 (wbuf st)) by lia.
    rewrite app_nil_r. reflexivity. }
  destruct (devWrite orc st (woff st) buf) as [ok st1] eqn:E.
  destruct ok; [|intros X; discriminate X].
  apply devWrite_true in E as [Fit ->]. intros X. injection X as <-. wsimp.
  split; [|auto]. rewrite LB in Fit.
  constructor; wsimp.
  - rewrite app_length, zeros_length. lia.
  - exists (k + 1). lia.
  - lia.
  - exact LB.
  - rewrite splice_length by (rewrite LB; lia). exact D.
  - rewrite <- LB at 1. rewrite firstn_splice by lia. rewrite P, EB, app_assoc, firstn_skipn.
    symmetry. apply firstn_all2. rewrite app_length, zeros_length. lia.
  - cbn [firstn]. symmetry. apply skipn_all2. rewrite app_length, zeros_length. lia.
  - lia.
  - intros Al. rewrite skipn_splice; [auto | |]; rewrite LB; [|lia].
    rewrite K. apply (aligned_fit k (widx st)); auto; lia.
  - intros w [<-|Hw]; [reflexivity | apply AL, Hw].
Qed.

Definition wtop (S : list byte) (st : wst) : Prop := S = [] \/ 0 < widx st.

Lemma pad_top S st : wrep S st -> wtop S st ->
  pad B (length S) = if B <? widx st + 28 then B - widx st else 0.
Proof.
  intros [L [k K] I _ _ _ _ _ _ _] T. unfold pad. destruct T as [->|T].
  - cbn [length] in *. rewrite roundUp_0 by lia. cbn [Nat.sub].
    assert (widx st = 0) by lia. destruct (Nat.ltb_spec B (widx st + 28)); [lia|].
    reflexivity.
  - rewrite L, K, roundUp_in by lia.
    replace (k * B + B - (k * B + widx st)) with (B - widx st) by lia.
    destruct (Nat.ltb_spec (B - widx st) 28), (Nat.ltb_spec B (widx st + 28)); try lia.
Qed.

Lemma copy_rep S1 st1 x : wrep S1 st1 -> widx st1 + length x <= B ->
  wrep (S1 ++ x) (mkW (wdev st1) (woff st1) (widx st1 + length x)
                      (splice (wbuf st1) (widx st1) x) (wlog st1)).
Proof.
  intros [L K I Bu D P C F O AL] H. constructor; wsimp; auto.
  - rewrite app_length. lia.
  - rewrite splice_length; [exact Bu|]. lia.
  - rewrite P, firstn_app. replace (woff st1 - length S1) with 0 by lia.
    cbn [firstn]. rewrite app_nil_r. reflexivity.
  - rewrite firstn_splice by lia. rewrite C.
    rewrite skipn_app. replace (woff st1 - length S1) with 0 by lia. reflexivity.
Qed.

(** Whatever the write of one record does: if it reports success, the record is in
    place. *)
Lemma wloop_ok fuel : forall S st data st',
  wrep S st -> wtop S st -> data <> [] -> length S <= M ->
  wloop B M orc fuel st data = (true, st') ->
  wrep (S ++ zeros (pad B (length S)) ++ data) st' /\ 0 < widx st' /\
  length (S ++ zeros (pad B (length S)) ++ data) <= M.
Proof.
  induction fuel as [|fuel IH]; intros S st data st' R T N HM; cbn [wloop]; [discriminate|].
  rewrite (pad_top S st R T). unfold hsize.
  set (fl := if B <? widx st + 28 then flush B orc st else (true, st)).
  set (pz := if B <? widx st + 28 then B - widx st else 0).
  assert (H1 : forall st1, fl = (true, st1) -> wrep (S ++ zeros pz) st1 /\ widx st1 + 28 <= B /\
               (wtop (S ++ zeros pz) st1 \/ widx st1 = 0)).
  { intros st1 E. unfold fl, pz in *. destruct (Nat.ltb_spec B (widx st + 28)) as [Lt|Ge].
    - destruct (flush_ok S st st1 R Lt HM E) as (R1 & I1 & _). split; [exact R1|]. split; [lia | auto].
    - injection E as <-. cbn [zeros repeat]. rewrite app_nil_r. split; [exact R|]. split; [lia|].
      left. exact T. }
  destruct fl as [ok st1]. destruct ok; cbn [negb]; [|discriminate].
  destruct (H1 st1 eq_refl) as (R1 & I1 & _). clear H1.
  destruct (Nat.ltb_spec M (woff st1 + widx st1 + length data)) as [Lt|Ge]; [discriminate|].
  set (cp := Nat.min (B - widx st1) (length data)).
  assert (LD : 0 < length data) by (destruct data; [congruence | cbn; lia]).
  assert (CP : 0 < cp /\ cp <= length data /\ widx st1 + cp <= B) by (unfold cp; lia).
  assert (LF : length (firstn cp data) = cp) by (rewrite firstn_length; lia).
  set (st2 := mkW (wdev st1) (woff st1) (widx st1 + cp)
                       (splice (wbuf st1) (widx st1) (firstn cp data)) (wlog st1)).
  assert (R2 : wrep ((S ++ zeros pz) ++ firstn cp data) st2).
  { pose proof (copy_rep _ st1 (firstn cp data) R1) as ZZ. rewrite LF in ZZ. apply ZZ. lia. }
  destruct (Nat.eqb_spec (length data - cp) 0) as [Z|Z].
  - intros E. injection E as <-. assert (FD : firstn cp data = data) by (apply firstn_all2; lia).
    rewrite FD in R2. rewrite <- app_assoc in R2. split; [exact R2|]. split; [unfold st2; wsimp; lia|].
    destruct R2 as [L2 _ _ _ _ _ _ _ _ _]. rewrite L2. unfold st2. wsimp. lia.
  - intros E. assert (CB : widx st1 + cp = B) by (unfold cp in *; lia).
    assert (P0 : pad B (length ((S ++ zeros pz) ++ firstn cp data)) = 0).
    { rewrite (pad_top _ st2 R2); [|right; unfold st2; wsimp; lia].
      unfold st2; wsimp. rewrite CB. destruct (B <? B + 28); lia. }
    assert (DE : data = firstn cp data ++ skipn cp data) by (symmetry; apply firstn_skipn).
    destruct (IH _ st2 (skipn cp data) st' R2) as (A1 & A2 & A3); auto.
    + right. unfold st2. wsimp. lia.
    + intros X. apply (f_equal (@length _)) in X. rewrite skipn_length in X. cbn in X. lia.
    + destruct R2 as [L2 _ _ _ _ _ _ _ _ _]. rewrite L2. unfold st2. wsimp. lia.
    + rewrite P0 in A1, A3. cbn [zeros repeat app] in A1, A3.
      rewrite <- !app_assoc in A1, A3. rewrite firstn_skipn in A1, A3. auto.
Qed.

Lemma writeRecord_ok S st d st' : wrep S st -> wtop S st -> length S <= M -> d <> [] ->
  writeRecord dh hh B M orc st d = (true, st') ->
  wrep (push dh hh B S d) st' /\ 0 < widx st' /\ length (push dh hh B S d) <= M /\
  (N.of_nat (length d) < two32)%N.
Proof.
  intros R T HM N. unfold writeRecord. destruct d as [|b d]; [congruence|].
  set (x := b :: d) in *.
  destruct (N.leb_spec two32 (N.of_nat (length x))) as [Le|Lt]; [discriminate|].
  intros E. destruct (wloop_ok (Datatypes.S (length (enc dh hh x))) S st (enc dh hh x) st' R T) as (A1 & A2 & A3); auto.
  intros X. apply (f_equal (@length _)) in X. rewrite enc_length in X. discriminate X.
Qed.

Lemma writeAll_ok rs : forall S st st', wrep S st -> wtop S st -> length S <= M ->
  Forall (fun d => d <> []) rs -> writeAll dh hh B M orc st rs = (true, st') ->
  wrep (stream dh hh B S rs) st' /\ wtop (stream dh hh B S rs) st' /\
  length (stream dh hh B S rs) <= M /\ Forall okrec rs.
Proof.
  induction rs as [|d rs IH]; intros S st st' R T HM F; cbn [writeAll].
  - intros E. injection E as <-. cbn [stream fold_left]. auto.
  - inversion F as [|? ? F1 F2]; subst.
    destruct (writeRecord dh hh B M orc st d) as [ok st1] eqn:E1.
    destruct ok; [|discriminate]. intros E.
    destruct (writeRecord_ok S st d st1 R T HM F1 E1) as (R1 & T1 & M1 & K1).
    destruct (IH _ _ _ R1 (or_intror T1) M1 F2 E) as (A1 & A2 & A3 & A4).
    cbn [stream fold_left]. split; [exact A1|]. split; [exact A2|]. split; [exact A3|].
    constructor; [split; assumption | exact A4].
Qed.

Lemma winit_rep : wrep [] (winit B dev0) /\ wtop [] (winit B dev0).
Proof.
  split; [|left; reflexivity]. constructor; unfold winit; wsimp; auto.
  - exists 0. reflexivity.
  - lia.
  - apply zeros_length.
  - lia.
  - intros w [].
Qed.

(** With no failing write, a record that fits is written. *)
Lemma wloop_fits (NF : orc = nofail) fuel : forall S st data,
  M <= length dev0 -> wrep S st -> wtop S st -> length data < fuel -> data <> [] ->
  length (S ++ zeros (pad B (length S)) ++ data) <= M ->
  exists st', wloop B M orc fuel st data = (true, st').
Proof.
  intros S st data. revert S st data.
  induction fuel as [|fuel IH]; intros S st data HD R T Fu N HM; [lia|]. cbn [wloop].
  rewrite (pad_top S st R T) in HM. rewrite !app_length, zeros_length in HM.
  unfold hsize.
  assert (LD : 0 < length data) by (destruct data; [congruence | cbn; lia]).
  assert (H1 : exists st1, (if B <? widx st + 28 then flush B orc st else (true, st)) = (true, st1) /\
     woff st1 + widx st1 = length S + (if B <? widx st + 28 then B - widx st else 0)).
  { destruct (Nat.ltb_spec B (widx st + 28)) as [Lt|Ge].
    - unfold flush. set (buf := splice (wbuf st) (widx st) (zeros (B - widx st))).
      assert (LB : length buf = B).
      { unfold buf. rewrite splice_length; [exact (w_buf _ _ R)|]. rewrite zeros_length, (w_buf _ _ R). pose proof (w_idx _ _ R). lia. }
      unfold devWrite. rewrite NF. unfold nofail. rewrite LB.
      destruct (w_blk _ _ R) as [k K]. pose proof (w_len _ _ R). pose proof (w_idx _ _ R).
      rewrite (w_dev _ _ R).
      destruct (Nat.leb_spec (woff st + B) (length dev0)) as [L|L]; cbn [fst snd].
      + eexists. split; [reflexivity|]. wsimp. lia.
      + lia.
    - eexists. split; [reflexivity|]. rewrite (w_len _ _ R). lia. }
  destruct H1 as (st1 & E1 & L1).
  assert (R1 : wrep (S ++ zeros (if B <? widx st + 28 then B - widx st else 0)) st1 /\
               widx st1 + 28 <= B).
  { destruct (Nat.ltb_spec B (widx st + 28)) as [Lt|Ge].
    - destruct (flush_ok S st st1 R Lt ltac:(lia) E1) as (R1 & I1 & _). split; [exact R1 | lia].
    - injection E1 as <-. cbn [zeros repeat]. rewrite app_nil_r. split; [exact R | lia]. }
  destruct R1 as [R1 I1].
  rewrite E1. cbn [negb].
  destruct (Nat.ltb_spec M (woff st1 + widx st1 + length data)) as [Lt|Ge]; [lia|].
  set (cp := Nat.min (B - widx st1) (length data)).
  assert (CP : 0 < cp /\ cp <= length data /\ widx st1 + cp <= B) by (unfold cp; lia).
  assert (LF : length (firstn cp data) = cp) by (rewrite firstn_length; lia).
  set (st2 := mkW (wdev st1) (woff st1) (widx st1 + cp)
                       (splice (wbuf st1) (widx st1) (firstn cp data)) (wlog st1)).
  destruct (Nat.eqb_spec (length data - cp) 0) as [Z|Z]; [eauto|].
  set (S1 := S ++ zeros (if B <? widx st + 28 then B - widx st else 0)) in *.
  assert (R2 : wrep (S1 ++ firstn cp data) st2).
  { pose proof (copy_rep _ st1 (firstn cp data) R1) as ZZ. rewrite LF in ZZ. apply ZZ. lia. }
  assert (CB : widx st1 + cp = B) by (unfold cp in *; lia).
  assert (T2 : wtop (S1 ++ firstn cp data) st2) by (right; unfold st2; wsimp; lia).
  assert (P0 : pad B (length (S1 ++ firstn cp data)) = 0).
  { rewrite (pad_top _ st2 R2 T2). unfold st2; wsimp. rewrite CB. destruct (B <? B + 28); lia. }
  apply (IH (S1 ++ firstn cp data)); auto.
  - rewrite skipn_length. lia.
  - intros X. apply (f_equal (@length _)) in X. rewrite skipn_length in X. cbn in X. lia.
  - rewrite P0. cbn [zeros repeat app]. rewrite <- app_assoc, firstn_skipn.
    unfold S1. rewrite !app_length, zeros_length. lia.
Qed.

Lemma writeAll_fits (NF : orc = nofail) rs : forall S st,
  M <= length dev0 -> wrep S st -> wtop S st -> Forall okrec rs ->
  length (stream dh hh B S rs) <= M ->
  exists st', writeAll dh hh B M orc st rs = (true, st').
Proof.
  induction rs as [|d rs IH]; intros S st HD R T F HM; cbn [writeAll]; [eauto|].
  apply Forall_cons_iff in F as [[F1 F1'] F2].
  cbn [stream fold_left] in HM.
  assert (LP : length (push dh hh B S d) <= M).
  { destruct (stream_pre dh hh B rs (push dh hh B S d)) as [X E]. unfold stream in E.
    rewrite E, app_length in HM. lia. }
  assert (LS : length S <= M) by (unfold push in LP; rewrite app_length in LP; lia).
  destruct (wloop_fits NF (Datatypes.S (length (enc dh hh d))) S st (enc dh hh d))
    as [st1 E1]; auto.
  { intros X. apply (f_equal (@length _)) in X. rewrite enc_length in X. discriminate X. }
  assert (E2 : writeRecord dh hh B M orc st d = (true, st1)).
  { unfold writeRecord. destruct d as [|b d]; [congruence|].
    destruct (N.leb_spec two32 (N.of_nat (length (b :: d)))) as [Le|Lt]; [lia|]. exact E1. }
  rewrite E2.
  destruct (writeRecord_ok S st d st1 R T LS F1 E2) as (R1 & T1 & M1 & K1).
  apply (IH (push dh hh B S d) st1); auto. right. exact T1.
Qed.

(** ** The destructor *)
Lemma destroy_out S st : wrep S st -> aligned -> wtop S st -> length S <= M ->
  skipn M (wdev (destroy B M orc st)) = skipn M dev0.
Proof.
  intros R Al T HM. unfold destroy.
  destruct (devWrite orc st (woff st) (firstn (widx st) (wbuf st) ++ zeros (B - widx st)))
    as [ok1 s1] eqn:E1. cbn [snd].
  apply devWrite_frame in E1 as (A1 & A2 & A3 & A4 & A5 & A6 & A7).
  assert (LB : length (firstn (widx st) (wbuf st) ++ zeros (B - widx st)) = B).
  { rewrite app_length, firstn_length, zeros_length, (w_buf _ _ R).
    pose proof (w_idx _ _ R). lia. }
  rewrite LB in A7.
  set (st1 := if 0 <? widx st then if woff st + B <? M
         then mkW (wdev s1) (woff st + B) (widx st) (wbuf st) (wlog s1) else st else st).
  assert (O1 : skipn M (wdev st1) = skipn M dev0).
  { unfold st1. destruct (0 <? widx st); [|apply (w_out _ _ R Al)].
    destruct (Nat.ltb_spec (woff st + B) M); [|apply (w_out _ _ R Al)]. wsimp.
    rewrite A7 by lia. apply (w_out _ _ R Al). }
  destruct (Nat.leb_spec (woff st1 + B) M) as [Le|Gt]; [|exact O1].
  destruct (devWrite orc st1 (woff st1) (zeros B)) as [ok2 s2] eqn:E2. cbn [snd].
  apply devWrite_frame in E2 as (B1 & B2 & B3 & B4 & B5 & B6 & B7).
  rewrite B7; [exact O1|]. rewrite zeros_length. exact Le.
Qed.

(** What the device holds after a successful save without write failures. *)
Lemma destroy_ok S st : wrep S st -> wtop S st -> roundUp B (length S) < M -> M <= length dev0 ->
  all_ok (wlog (destroy B M orc st)) ->
  let d := wdev (destroy B M orc st) in let E := roundUp B (length S) in
  length d = length dev0 /\ firstn E d = S ++ zeros (E - length S) /\
  (E + B <= M -> slice d E B = zeros B).
Proof.
  intros R T HE HD. unfold destroy.
  destruct (devWrite orc st (woff st) (firstn (widx st) (wbuf st) ++ zeros (B - widx st)))
    as [ok1 s1] eqn:E1. cbn [snd].
  assert (LB : length (firstn (widx st) (wbuf st) ++ zeros (B - widx st)) = B).
  { rewrite app_length, firstn_length, zeros_length, (w_buf _ _ R).
    pose proof (w_idx _ _ R). lia. }
  set (st1 := if 0 <? widx st then if woff st + B <? M
         then mkW (wdev s1) (woff st + B) (widx st) (wbuf st) (wlog s1) else st else st).
  assert (K1 : all_ok (wlog st1) ->
     woff st1 = roundUp B (length S) /\ length (wdev st1) = length dev0 /\
     firstn (roundUp B (length S)) (wdev st1) =
       S ++ zeros (roundUp B (length S) - length S)).
  { pose proof R as [L [k K] I Bu D P C F O AL]. unfold st1. destruct T as [->|T].
    - cbn [length] in *. rewrite roundUp_0 in * by lia. assert (widx st = 0) by lia.
      replace (0 <? widx st) with false by (symmetry; apply Nat.ltb_ge; lia).
      intros _. split; [lia|]. split; [exact D|]. reflexivity.
    - destruct (Nat.ltb_spec 0 (widx st)) as [_|Z]; [|lia].
      assert (RU : roundUp B (length S) = woff st + B) by (rewrite L, K; apply roundUp_in; lia).
      rewrite RU in *. destruct (Nat.ltb_spec (woff st + B) M) as [Lt|Ge]; [|lia].
      wsimp. intros AO.
      pose proof (devWrite_frame _ _ _ _ _ E1) as (_ & _ & _ & A4 & _).
      assert (OK1 : ok1 = true).
      { rewrite A4 in AO. apply (AO (woff st, ok1)). left. reflexivity. }
      subst ok1. apply devWrite_true in E1 as [Fit ->]. wsimp.
      split; [reflexivity|]. split; [rewrite splice_length by exact Fit; exact D|].
      rewrite <- LB at 1. rewrite firstn_splice by lia. rewrite P, C, app_assoc, firstn_skipn.
      f_equal. f_equal. lia. }
  destruct (Nat.leb_spec (woff st1 + B) M) as [Le|Gt].
  - destruct (devWrite orc st1 (woff st1) (zeros B)) as [ok2 s2] eqn:E2. cbn [snd].
    pose proof (devWrite_frame _ _ _ _ _ E2) as (_ & _ & _ & A4 & A5 & A6 & _).
    intros AO. rewrite A4 in AO.
    destruct K1 as (W & D1 & F1); [intros w Hw; apply AO; right; exact Hw|].
    assert (OK2 : ok2 = true) by (apply (AO (woff st1, ok2)); left; reflexivity).
    subst ok2. apply devWrite_true in E2 as [Fit ->]. wsimp. rewrite zeros_length in Fit.
    cbv zeta. rewrite W in *. split; [rewrite splice_length; [exact D1 | rewrite zeros_length; exact Fit]|].
    split; [rewrite firstn_splice_le by lia; exact F1|].
    intros _. match goal with |- slice (splice ?l ?o _) _ _ = _ =>
      pose proof (slice_splice l (zeros B) o ltac:(lia)) as ZS end.
    rewrite zeros_length in ZS. exact ZS.
  - intros AO. destruct (K1 AO) as (W & D1 & F1). rewrite W in Gt.
    split; [exact D1|]. split; [exact F1|]. lia.
Qed.

(** The last block is lost when it ends at the end of the metadata area. *)
Lemma destroy_lost S st : wrep S st -> 0 < widx st -> woff st + B = M -> M <= length dev0 ->
  all_ok (wlog (destroy B M orc st)) ->
  let d := wdev (destroy B M orc st) in
  length d = length dev0 /\ firstn (M - B) d = firstn (M - B) S /\ slice d (M - B) B = zeros B.
Proof.
  intros R T HE HD. unfold destroy.
  destruct (Nat.ltb_spec 0 (widx st)) as [_|Z]; [|lia].
  destruct (Nat.ltb_spec (woff st + B) M) as [Lt|Ge]; [lia|].
  destruct (Nat.leb_spec (woff st + B) M) as [Le|Gt]; [|lia].
  destruct (devWrite orc st (woff st) (zeros B)) as [ok2 s2] eqn:E2. cbn [snd].
  pose proof (devWrite_frame _ _ _ _ _ E2) as (_ & _ & _ & A4 & A5 & A6 & _).
  intros AO. rewrite A4 in AO.
  assert (OK2 : ok2 = true) by (apply (AO (woff st, ok2)); left; reflexivity).
  subst ok2. apply devWrite_true in E2 as [Fit ->]. wsimp. rewrite zeros_length in Fit.
  cbv zeta. pose proof (w_dev _ _ R). replace (M - B) with (woff st) by lia.
  split; [rewrite splice_length; [lia | rewrite zeros_length; exact Fit]|].
  split; [rewrite firstn_splice_le by lia; apply (w_pre _ _ R)|].
  match goal with |- slice (splice ?l ?o _) _ _ = _ =>
      pose proof (slice_splice l (zeros B) o ltac:(lia)) as ZS end.
    rewrite zeros_length in ZS. exact ZS.
Qed.

End Rec.
