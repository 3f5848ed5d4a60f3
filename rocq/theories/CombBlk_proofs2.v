(** A new entry, whole runs, and the buffer read back. *)
From Coq Require Import List NArith Bool Arith Lia.
Import ListNotations.
From Verif Require Import Bytes CombBlk_model CombBlk_spec CombBlk_proofs1.

Definition room1 (size n : nat) : Prop := fits size (S n).
Lemma full_spec : forall size n, small size -> fits size n ->
  (u16 (N.of_nat (size - 5 * n) + 65536 - recordSize) <? emptySpacePos (N.of_nat n + 1))%N = negb (fitsb size (S n)).
Proof.
  intros size n SM F. unfold small, fits, fitsb in *. unfold emptySpacePos, headerSize, infoSize, recordSize.
  assert (P : u16 (N.of_nat (size - 5 * n) + 65536 - 5) = N.of_nat (size - 5 * (n + 1))).
  { unfold u16. replace (N.of_nat (size - 5 * n) + 65536 - 5)%N with (N.of_nat (size - 5 * (n + 1)) + 1 * 65536)%N by lia. rewrite N.mod_add by lia. apply N.mod_small. lia. }
  rewrite P. rewrite u16_small by lia. destruct (Nat.leb_spec (12 + 24 * S n + 5 * S n) size); cbn [negb]; [apply N.ltb_ge|apply N.ltb_lt]; lia.
Qed.
Lemma pos_spec : forall size n, small size -> fits size (S n) -> u16 (N.of_nat (size - 5 * n) + 65536 - recordSize) = N.of_nat (place size n).
Proof.
  intros size n SM F. unfold small, fits, place, recordSize in *. unfold u16. replace (N.of_nat (size - 5 * n) + 65536 - 5)%N with (N.of_nat (size - 5 * (n + 1)) + 1 * 65536)%N by lia. rewrite N.mod_add by lia. apply N.mod_small. lia.
Qed.
Lemma nth_snoc : forall (l : list N) k i x, nth_error (l ++ [k]) i = Some x -> nth_error l i = Some x \/ (i = length l /\ x = k).
Proof.
  intros l k i x H. destruct (lt_dec i (length l)) as [L|L]; [left; now rewrite nth_error_app1 in H|]. right. rewrite nth_error_app2 in H by lia.
  destruct (i - length l) as [|j] eqn:E; cbn in H; [injection H as ->; split; [lia|reflexivity]|destruct j; discriminate].
Qed.
Lemma nd_snoc : forall (l : list N) k, NoDup l -> ~ In k l -> NoDup (l ++ [k]).
Proof.
  intros l k. induction l as [|x l IH]; intros ND NI; cbn; [constructor; auto|]. inversion ND; subst. constructor; [|apply IH; auto; intros X; apply NI; now right].
  intros X. apply in_app_or in X. destruct X as [X|[X|[]]]; [contradiction|]. apply NI. now left.
Qed.
Lemma add_new : forall size s m b k r, small size -> R size s m -> (b < 256 ^ 8)%N -> (k < 256 ^ 8)%N -> length r = 5 -> ~ In k (seen m) ->
  exists s' x, add s b k r = Some (s', x) /\ does size m (Add b k r) = (if fitsb size (S (length (seen m))) then mkS (upd (live m) k (Some (b, r))) (seen m ++ [k]) else m, x) /\
  R size s' (if fitsb size (S (length (seen m))) then mkS (upd (live m) k (Some (b, r))) (seen m ++ [k]) else m).
Proof.
  intros size s m b k r SM H OB OKK LR NI. set (n := length (seen m)).
  assert (ST : stored s k = None). { destruct (stored s k) as [i|] eqn:E; [|reflexivity]. apply (r_str _ _ _ H) in E. exfalso. apply NI. eapply nth_error_In; eauto. }
  assert (LV : live m k = None). { destruct (live m k) as [v|] eqn:E; [|reflexivity]. exfalso. apply NI. apply (r_live _ _ _ H). congruence. }
  assert (EX : existsb (N.eqb k) (seen m) = false). { destruct (existsb (N.eqb k) (seen m)) eqn:E; [|reflexivity]. apply existsb_in in E. contradiction. }
  unfold add. cbn [does]. rewrite ST, LV, EX. unfold numStored. rewrite (r_num _ _ _ H). fold n. rewrite (r_cur _ _ _ H). fold n. pose proof (r_fit _ _ _ H) as F. fold n in F. rewrite full_spec by assumption.
  destruct (fitsb size (S n)) eqn:Q; cbn [negb]; [|exists s, kFull; auto]. apply Nat.leb_le in Q. assert (F' : fits size (S n)) by exact Q. rewrite pos_spec by assumption. rewrite !Nnat.Nat2N.id.
  destruct (room _ _ n F' ltac:(lia)) as (Q1 & Q2 & _). pose proof (r_len _ _ _ H) as L0.
  destruct (wr_some (buf s) (place size n) r ltac:(lia)) as (d1 & W1 & L1). rewrite W1.
  set (info := le_enc 8 b ++ le_enc 8 k ++ le_enc 2 (N.of_nat (place size n)) ++ repeat 0%N 6).
  assert (LI : length info = 24) by (unfold info; rewrite !app_length, !le_enc_length; reflexivity).
  destruct (wr_some d1 (infoAt n) info ltac:(lia)) as (d2 & W2 & L2). rewrite W2.
  destruct (wr_some d2 8 (le_enc 4 (N.of_nat n + 1)) ltac:(rewrite le_enc_length, L2, L1, L0; rewrite info_eq in Q1; lia)) as (d3 & W3 & L3). rewrite W3.
  assert (LE4 : length (le_enc 4 (N.of_nat n + 1)) = 4) by apply le_enc_length.
  eexists. exists kOk. split; [reflexivity|]. split; [reflexivity|].
  pose proof (count_small _ _ SM F) as CS.
  assert (PS : (N.of_nat (place size n) < 256 ^ N.of_nat 2)%N) by (unfold small, place in *; change (256 ^ N.of_nat 2)%N with 65536%N; lia).
  constructor; cbn [buf cur stored valid bids seen live].
  - congruence.
  - rewrite app_length. cbn [length]. fold n. replace (N.of_nat (n + 1)) with (N.of_nat n + 1)%N by lia. eapply rd_enc; [exact W3|]. change (256 ^ N.of_nat 4)%N with 4294967296%N. lia.
  - rewrite app_length. cbn [length]. fold n. unfold place. reflexivity.
  - rewrite app_length. cbn [length]. fold n. now rewrite Nat.add_1_r.
  - apply nd_snoc; [apply H|assumption].
  - intros k' i. destruct (N.eq_dec k' k) as [->|Ne].
    + rewrite upd_same. split.
      * intros X. injection X as <-. rewrite nth_error_app2 by (unfold n; lia). unfold n. now rewrite Nat.sub_diag.
      * intros X. apply nth_snoc in X. destruct X as [X|[-> _]]; [|reflexivity]. exfalso. apply NI. eapply nth_error_In; eauto.
    + rewrite upd_other by assumption. rewrite (r_str _ _ _ H). split.
      * intros X. rewrite nth_error_app1; [assumption|]. eapply nth_lt; eauto.
      * intros X. apply nth_snoc in X. destruct X as [X|[_ X]]; [assumption|congruence].
  - intros i k' X. apply nth_snoc in X. destruct X as [X|[-> ->]].
    + rewrite upd_other by (intros ->; apply NI; eapply nth_error_In; eauto). pose proof (nth_lt _ _ _ X) as LT. fold n in LT. destruct (apart _ _ i n F' ltac:(lia) ltac:(lia) ltac:(lia)) as (P1 & P2 & P3). destruct (apart _ _ n i F' ltac:(lia) ltac:(lia) ltac:(lia)) as (_ & _ & P4).
      destruct (room _ _ i F' ltac:(lia)) as (Q3 & Q4 & _). pose proof (info_eq i) as IE.
      eapply ent_frame; [exact W3|lia|lia|]. eapply ent_frame; [exact W2|lia|lia|]. eapply ent_frame; [exact W1|lia|lia|]. now apply (r_ent _ _ _ H).
    + fold n. rewrite upd_same. pose proof (info_eq n) as IE.
      assert (G3 : forall w off, infoAt n <= off -> rd w d3 off = rd w d2 off) by (intros w off B; apply (rd_other _ _ _ _ _ _ W3); lia).
      unfold Ent, keyAt, posAt, flagAt, bidAt. rewrite !G3 by lia. split; [|split; [|split]].
      * pose proof (rd_part d1 (infoAt n) info d2 (le_enc 8 b) 8 k (le_enc 2 (N.of_nat (place size n)) ++ repeat 0%N 6) W2 eq_refl OKK) as X. now rewrite le_enc_length in X.
      * pose proof (rd_part d1 (infoAt n) info d2 (le_enc 8 b ++ le_enc 8 k) 2 (N.of_nat (place size n)) (repeat 0%N 6) W2) as X. rewrite app_length, !le_enc_length in X. apply X; [|assumption]. unfold info. now rewrite <- !app_assoc.
      * exists 0%N. split; [|reflexivity]. pose proof (rd_part d1 (infoAt n) info d2 (le_enc 8 b ++ le_enc 8 k ++ le_enc 2 (N.of_nat (place size n))) 1 0%N (repeat 0%N 5) W2) as X. rewrite !app_length, !le_enc_length in X. apply X; [|reflexivity]. unfold info. now rewrite <- !app_assoc.
      * exists b. split; [|split; [reflexivity|]].
        -- pose proof (rd_part d1 (infoAt n) info d2 [] 8 b (le_enc 8 k ++ le_enc 2 (N.of_nat (place size n)) ++ repeat 0%N 6) W2 eq_refl OB) as X. cbn [length] in X. now rewrite Nat.add_0_r in X.
        -- rewrite (sl_other _ _ _ _ _ _ W3) by lia. rewrite (sl_other _ _ _ _ _ _ W2) by lia. rewrite <- LR. eapply sl_same; eauto.
  - intros k' X. apply in_or_app. destruct (N.eq_dec k' k) as [->|Ne]; [right; now left|]. left. rewrite upd_other in X by assumption. now apply (r_live _ _ _ H).
  - rewrite cnt_app. cbn [b2n]. unfold isLive at 2. cbn [live]. rewrite upd_same. cbn [b2n]. rewrite (cnt_ext (isLive {| live := upd (live m) k (Some (b, r)); seen := seen m ++ [k] |}) (isLive m)).
    + rewrite (r_valid _ _ _ H). pose proof (cnt_le (isLive m) (seen m)). fold n in H0. rewrite u16_small by lia. lia.
    + intros x Hx. unfold isLive. cbn [live]. rewrite upd_other; [reflexivity|]. intros ->. contradiction.
  - intros b2. rewrite cnt_app. rewrite (cnt_ext (ofBid {| live := upd (live m) k (Some (b, r)); seen := seen m ++ [k] |} b2) (ofBid m b2)).
    + unfold ofBid at 2. cbn [live]. rewrite upd_same. unfold incBid. destruct (N.eqb_spec b2 b) as [->|Ne].
      * rewrite upd_same, N.eqb_refl, (r_bids _ _ _ H). cbn [b2n]. lia.
      * rewrite upd_other by assumption. rewrite (r_bids _ _ _ H). destruct (N.eqb_spec b b2); [congruence|]. cbn [b2n]. lia.
    + intros x Hx. unfold ofBid. cbn [live]. rewrite upd_other; [reflexivity|]. intros ->. contradiction.
  - intros b2 k' r2 X. destruct (N.eq_dec k' k) as [->|Ne]; [rewrite upd_same in X; injection X as <- <-; auto|]. rewrite upd_other in X by assumption. eapply (r_ok _ _ _ H); eauto.
Qed.

Lemma init_R : forall d, 12 <= length d -> exists d', initHeader d = Some d' /\ R (length d) (mkB d' 0 (N.of_nat (length d)) (fun _ => None) (fun _ => 0)) empty.
Proof.
  intros d L. unfold initHeader. destruct (wr_some d 0 sig) as (d1 & W1 & L1); [cbn; lia|]. rewrite W1. destruct (wr_some d1 8 (le_enc 4 0)) as (d2 & W2 & L2); [rewrite le_enc_length, L1; lia|]. exists d2. split; [assumption|].
  constructor; cbn [buf cur stored valid bids seen live empty length].
  - congruence.
  - eapply rd_enc; [exact W2|reflexivity].
  - f_equal. lia.
  - unfold fits. lia.
  - constructor.
  - intros k i. split; [discriminate|]. destruct i; discriminate.
  - intros i k X. destruct i; discriminate.
  - intros k X. cbn in X. congruence.
  - reflexivity.
  - reflexivity.
  - intros b k r X. discriminate X.
Qed.
Lemma exec_R : forall size s m c, small size -> R size s m -> okCall c -> exists s' x, exec s c = Some (s', x) /\ snd (does size m c) = x /\ R size s' (fst (does size m c)).
Proof.
  intros size s m c SM H OK. destruct c as [b k r|k|]; cbn [exec okCall] in *.
  - destruct OK as (O1 & O2 & O3). destruct (stored s k) as [i|] eqn:ST.
    + destruct (add_old size s m i b k r SM H O1 O3 ST) as (s' & x & A & B & C). exists s', x. split; [assumption|]. cbn [does]. pose proof (proj1 (r_str _ _ _ H k i) ST) as NI. apply nth_error_In in NI. apply existsb_in in NI.
      destruct (live m k) as [v|]; [subst x; auto|]. rewrite NI. subst x. auto.
    + assert (NI : ~ In k (seen m)). { intros X. apply In_nth_error in X. destruct X as [i X]. apply (r_str _ _ _ H) in X. congruence. }
      destruct (add_new size s m b k r SM H O1 O2 O3 NI) as (s' & x & A & B & C). exists s', x. split; [assumption|]. rewrite B. auto.
  - destruct (remove_R size s m k SM H) as (s' & x & A & B & _ & C). exists s', x. split; [assumption|]. rewrite B. auto.
  - unfold clear. destruct (init_R (buf s)) as (d' & A & B); [rewrite (r_len _ _ _ H); unfold small in SM; lia|]. rewrite A. rewrite (r_len _ _ _ H) in *. eexists. exists kOk. split; [reflexivity|]. split; [reflexivity|]. exact B.
Qed.
Lemma run_R : forall size cs s m, small size -> R size s m -> Forall okCall cs -> exists s', run s cs = Some (s', snd (doAll size m cs)) /\ R size s' (fst (doAll size m cs)).
Proof.
  intros size cs. induction cs as [|c cs IH]; intros s m SM H OK; [exists s; auto|]. inversion OK; subst. destruct (exec_R size s m c SM H H2) as (s1 & x & A & B & C). cbn [run doAll]. rewrite A.
  destruct (does size m c) as [m1 x1] eqn:D. cbn [fst snd] in *. subst x1. destruct (IH s1 m1 SM C H3) as (s2 & E & F). rewrite E. destruct (doAll size m1 cs) as [m2 xs]. exists s2. auto.
Qed.
Lemma get_R : forall size s m k, R size s m -> get s k = Some (match live m k with Some (_, r) => Some r | None => None end).
Proof.
  intros size s m k H. unfold get. destruct (stored s k) as [i|] eqn:ST.
  - apply (r_str _ _ _ H) in ST. pose proof (r_ent _ _ _ H _ _ ST) as EN. rewrite (removed_spec _ _ _ _ _ EN). pose proof EN as (_ & B & _ & b & _ & D). destruct (live m k) as [[b' r]|]; [|reflexivity]. unfold entryPos. rewrite B, Nnat.Nat2N.id.
    destruct D as [_ D]. unfold rd_bytes. pose proof (nth_lt _ _ _ ST) as LT. destruct (room _ _ _ (r_fit _ _ _ H) LT) as (_ & Q & _). change (N.to_nat recordSize) with 5. rewrite (r_len _ _ _ H), (proj2 (Nat.leb_le _ _)) by lia. now rewrite D.
  - destruct (live m k) as [[b r]|] eqn:LV; [|reflexivity]. exfalso. assert (X : In k (seen m)) by (apply (r_live _ _ _ H); congruence). apply In_nth_error in X. destruct X as [i X]. apply (r_str _ _ _ H) in X. congruence.
Qed.
Lemma peek_R : forall size s m k, R size s m -> peek s k = Some (isLive m k).
Proof.
  intros size s m k H. unfold peek, isLive. destruct (stored s k) as [i|] eqn:ST.
  - apply (r_str _ _ _ H) in ST. pose proof (r_ent _ _ _ H _ _ ST) as EN. rewrite (removed_spec _ _ _ _ _ EN). now destruct (live m k).
  - destruct (live m k) as [v|] eqn:LV; [|reflexivity]. exfalso. assert (X : In k (seen m)) by (apply (r_live _ _ _ H); congruence). apply In_nth_error in X. destruct X as [i X]. apply (r_str _ _ _ H) in X. congruence.
Qed.
Lemma seq_map : forall (l : list N) (A : Type) (f : nat -> list A) (g : N -> list A), (forall i k, nth_error l i = Some k -> f i = g k) -> flat_map f (seq 0 (length l)) = flat_map g l.
Proof.
  induction l as [|k l IH]; intros A f g H; [reflexivity|]. cbn [length seq flat_map]. rewrite (H 0 k eq_refl). f_equal. rewrite <- seq_shift. rewrite flat_map_concat_map, map_map, <- flat_map_concat_map. apply IH. intros i x X. exact (H (S i) x X).
Qed.
Lemma odd_bit : forall f, N.odd f = N.testbit f 0. Proof. intros. symmetry. apply N.bit0_odd. Qed.
Lemma found_R : forall size s m, R size s m -> found (buf s) = contents m.
Proof.
  intros size s m H. unfold found, contents, entries. pose proof (rd_some _ _ _ _ (r_num _ _ _ H)) as [_ NU]. rewrite <- NU, Nnat.Nat2N.id. rewrite flat_map_concat_map, map_map, <- flat_map_concat_map. apply seq_map. intros i k X.
  pose proof (r_ent _ _ _ H _ _ X) as (A & B & (f & C1 & C2) & b & D1 & D2). unfold keyAt, posAt, flagAt, bidAt in *. rewrite info_eq in *. unfold entry.
  apply rd_some in A, B, C1, D1. destruct A as [_ A], B as [_ B], C1 as [_ C1], D1 as [_ D1]. rewrite <- A, <- B, <- C1, <- D1, odd_bit, C2, Nnat.Nat2N.id. destruct (live m k) as [[b' r]|]; [|reflexivity]. destruct D2 as [-> D2]. now rewrite D2.
Qed.
Lemma create_R : forall size d, small size -> length d = size -> exists s, create d = Some s /\ R size s empty.
Proof. intros size d SM <-. unfold create. destruct (init_R d) as (d' & A & B); [unfold small in SM; lia|]. rewrite A. eauto. Qed.

Lemma refines : forall size d cs, (12 <= N.of_nat size < 65536)%N -> length d = size -> Forall okCall cs -> exists s0 s, create d = Some s0 /\ run s0 cs = Some (s, snd (doAll size empty cs)) /\
  let m := fst (doAll size empty cs) in
  (forall k, get s k = Some (match live m k with Some (_, r) => Some r | None => None end) /\ peek s k = Some (isLive m k)) /\
  valid s = N.of_nat (length (filter (isLive m) (seen m))) /\ numStored (buf s) = Some (N.of_nat (length (seen m))) /\
  (forall b, bids s b = length (filter (ofBid m b) (seen m))).
Proof.
  intros size d cs SM L OK. destruct (create_R size d SM L) as (s0 & A & B). destruct (run_R size cs s0 empty SM B OK) as (s & C & D). exists s0, s. split; [assumption|]. split; [assumption|]. cbv zeta.
  split; [intros k; split; [eapply get_R; eauto|eapply peek_R; eauto]|]. split; [apply D|]. split; [apply D|]. apply D.
Qed.
Lemma buffer : forall size d cs s0 s xs, (12 <= N.of_nat size < 65536)%N -> length d = size -> Forall okCall cs -> create d = Some s0 -> run s0 cs = Some (s, xs) ->
  length (buf s) = size /\ found (buf s) = contents (fst (doAll size empty cs)).
Proof.
  intros size d cs s0 s xs SM L OK E R0. destruct (create_R size d SM L) as (s0' & A & B). assert (s0' = s0) by congruence. subst s0'. destruct (run_R size cs s0 empty SM B OK) as (s' & C & D). assert (s' = s) by congruence. subst s'.
  split; [apply D|]. eapply found_R; eauto.
Qed.
(** the specification's own sense: the keys seen are distinct and contain the live ones *)
Lemma seen_ok : forall size cs, (12 <= N.of_nat size < 65536)%N -> Forall okCall cs -> let m := fst (doAll size empty cs) in NoDup (seen m) /\ (forall k, live m k <> None -> In k (seen m)) /\ fits size (length (seen m)).
Proof.
  intros size cs SM OK. destruct (create_R size (repeat 0%N size) SM (repeat_length _ _)) as (s0 & A & B). destruct (run_R size cs s0 empty SM B OK) as (s & C & D). cbv zeta. split; [apply D|]. split; [apply D|apply D].
Qed.
