(** The buffer stands for the map. *)
From Coq Require Import List NArith Bool Arith Lia.
Import ListNotations.
From Verif Require Import Bytes CombBlk_model CombBlk_spec.

(** *** Buffers *)
Lemma wr_some : forall d o new, o + length new <= length d -> exists d', wr d o new = Some d' /\ length d' = length d.
Proof. intros d o new H. unfold wr. rewrite (proj2 (Nat.leb_le _ _) H). eexists. split; [reflexivity|]. now apply splice_length. Qed.
Lemma wr_inv : forall d o new d', wr d o new = Some d' -> o + length new <= length d /\ d' = splice d o new.
Proof. intros d o new d' H. unfold wr in H. destruct (Nat.leb_spec (o + length new) (length d)); [|discriminate]. injection H as <-. auto. Qed.
Lemma slice_other : forall (d new : list byte) o off w, o + length new <= length d -> off + w <= o \/ o + length new <= off -> slice (splice d o new) off w = slice d off w.
Proof.
  intros d new o off w L [H|H].
  - transitivity (slice (firstn o d ++ skipn o d) off w); [|now rewrite firstn_skipn]. unfold splice. rewrite !slice_app_l by (rewrite firstn_length; lia). reflexivity.
  - transitivity (slice (firstn (o + length new) d ++ skipn (o + length new) d) off w); [|now rewrite firstn_skipn]. unfold splice. rewrite app_assoc.
    rewrite !slice_app_r by (rewrite ?app_length, firstn_length; lia). rewrite app_length, !firstn_length. f_equal. lia.
Qed.
Lemma slice_same : forall (d new : list byte) o, o + length new <= length d -> slice (splice d o new) o (length new) = new.
Proof.
  intros d new o H. unfold slice, splice. rewrite skipn_app, skipn_all2 by (rewrite firstn_length; lia). rewrite firstn_length. replace (o - Nat.min o (length d)) with 0 by lia. cbn [skipn app].
  rewrite firstn_app, firstn_all, Nat.sub_diag. cbn [firstn]. apply app_nil_r.
Qed.
Lemma slice_part : forall (l : list byte) o w a n, a + n <= w -> slice (slice l o w) a n = slice l (o + a) n.
Proof.
  intros l o w a n H. unfold slice. rewrite skipn_firstn_comm, firstn_firstn, Nat.min_l by lia. f_equal. rewrite <- (Nat.add_comm a). revert l. induction o as [|o IH]; intros l; [now rewrite Nat.add_0_r|].
  rewrite Nat.add_succ_r. destruct l as [|x l]; [now rewrite !skipn_nil|]. cbn [skipn]. apply IH.
Qed.
Lemma rd_other : forall d o new d' off w, wr d o new = Some d' -> off + w <= o \/ o + length new <= off -> rd w d' off = rd w d off.
Proof. intros d o new d' off w H D. apply wr_inv in H. destruct H as [L ->]. unfold rd. rewrite splice_length by assumption. now rewrite slice_other. Qed.
Lemma sl_other : forall d o new d' off w, wr d o new = Some d' -> off + w <= o \/ o + length new <= off -> slice d' off w = slice d off w.
Proof. intros d o new d' off w H D. apply wr_inv in H. destruct H as [L ->]. now rewrite slice_other. Qed.
Lemma sl_same : forall d o new d', wr d o new = Some d' -> slice d' o (length new) = new.
Proof. intros d o new d' H. apply wr_inv in H. destruct H as [L ->]. now apply slice_same. Qed.
Lemma rd_part : forall d o new d' a w v c, wr d o new = Some d' -> new = a ++ le_enc w v ++ c -> (v < 256 ^ N.of_nat w)%N -> rd w d' (o + length a) = Some v.
Proof.
  intros d o new d' a w v c H E B. pose proof (sl_same _ _ _ _ H) as S. apply wr_inv in H. destruct H as [L ->]. unfold rd. rewrite splice_length by assumption.
  assert (LN : length new = length a + (w + length c)) by (rewrite E, !app_length, le_enc_length; reflexivity). rewrite (proj2 (Nat.leb_le _ _)) by lia. f_equal.
  rewrite <- (slice_part _ o (length new)) by lia. rewrite S, E. rewrite slice_app_mid; [now apply le_dec_enc|reflexivity|now rewrite le_enc_length].
Qed.
Lemma rd_some : forall w d o v, rd w d o = Some v -> o + w <= length d /\ v = le_dec (slice d o w).
Proof. intros w d o v H. unfold rd in H. destruct (Nat.leb_spec (o + w) (length d)); [|discriminate]. injection H as <-. auto. Qed.

Lemma info_eq : forall i, infoAt i = 12 + 24 * i.
Proof. intros. unfold infoAt, headerSize, infoSize. lia. Qed.

(** *** One entry *)
Definition place (size i : nat) : nat := size - 5 * (i + 1).
Definition Ent (d : list byte) (size i : nat) (k : N) (v : option (N * list byte)) : Prop :=
  rd 8 d (keyAt i) = Some k /\ rd 2 d (posAt i) = Some (N.of_nat (place size i)) /\
  (exists f, rd 1 d (flagAt i) = Some f /\ N.testbit f 0 = match v with None => true | _ => false end) /\
  (exists b, rd 8 d (bidAt i) = Some b /\ match v with Some (b', r) => b = b' /\ slice d (place size i) 5 = r | None => True end).
Lemma ent_frame : forall d o new d' size i k v, wr d o new = Some d' ->
  (infoAt i + 24 <= o \/ o + length new <= infoAt i) -> (place size i + 5 <= o \/ o + length new <= place size i) -> Ent d size i k v -> Ent d' size i k v.
Proof.
  intros d o new d' size i k v W I P (A & B & (f & C1 & C2) & b & D1 & D2). unfold Ent, keyAt, posAt, flagAt, bidAt in *.
  repeat split.
  - rewrite (rd_other _ _ _ _ _ _ W) by lia. exact A.
  - rewrite (rd_other _ _ _ _ _ _ W) by lia. exact B.
  - exists f. split; [|exact C2]. rewrite (rd_other _ _ _ _ _ _ W) by lia. exact C1.
  - exists b. split; [rewrite (rd_other _ _ _ _ _ _ W) by lia; exact D1|]. destruct v as [[b' r]|]; [|exact D2]. rewrite (sl_other _ _ _ _ _ _ W) by lia. exact D2.
Qed.

(** *** Counting *)
Definition b2n (b : bool) : nat := if b then 1 else 0.
Definition cnt (f : N -> bool) (l : list N) : nat := length (filter f l).
Lemma cnt_app : forall f l k, cnt f (l ++ [k]) = cnt f l + b2n (f k).
Proof. intros. unfold cnt. rewrite filter_app, app_length. cbn. now destruct (f k). Qed.
Lemma cnt_ext : forall f g l, (forall x, In x l -> f x = g x) -> cnt f l = cnt g l.
Proof. intros f g l. unfold cnt. induction l as [|x l IH]; intros H; [reflexivity|]. cbn. rewrite (H x) by now left. assert (E : length (filter f l) = length (filter g l)) by (apply IH; intros; apply H; now right). destruct (g x); cbn; congruence. Qed.
Lemma cnt_upd : forall f g k l, NoDup l -> In k l -> (forall x, x <> k -> f x = g x) -> cnt f l + b2n (g k) = cnt g l + b2n (f k).
Proof.
  intros f g k l. induction l as [|x l IH]; intros ND I E; [destruct I|]. inversion ND as [|? ? N1 N2]; subst. unfold cnt in *. cbn. destruct I as [->|I].
  - assert (X : length (filter f l) = length (filter g l)) by (apply (cnt_ext f g l); intros y Hy; apply E; intros ->; contradiction). destruct (f k), (g k); cbn; lia.
  - specialize (IH N2 I E). rewrite (E x) by (intros ->; contradiction). destruct (g x); cbn in *; lia.
Qed.
Lemma cnt_le : forall f l, cnt f l <= length l.
Proof. intros. unfold cnt. induction l as [|x l IH]; cbn; [lia|]. destruct (f x); cbn; lia. Qed.
Lemma cnt_pos : forall f l k, In k l -> f k = true -> 0 < cnt f l.
Proof. intros f l k I E. unfold cnt. assert (X : In k (filter f l)) by (apply filter_In; auto). destruct (filter f l); [destruct X|cbn; lia]. Qed.
Lemma upd_same : forall A (f : N -> A) k v, upd f k v k = v. Proof. intros. unfold upd. now rewrite N.eqb_refl. Qed.
Lemma upd_other : forall A (f : N -> A) k v x, x <> k -> upd f k v x = f x. Proof. intros. unfold upd. now destruct (N.eqb_spec x k). Qed.

Record R (size : nat) (s : block) (m : smap) : Prop := {
  r_len : length (buf s) = size;
  r_num : rd 4 (buf s) 8 = Some (N.of_nat (length (seen m)));
  r_cur : cur s = N.of_nat (size - 5 * length (seen m));
  r_fit : fits size (length (seen m));
  r_nd : NoDup (seen m);
  r_str : forall k i, stored s k = Some i <-> nth_error (seen m) i = Some k;
  r_ent : forall i k, nth_error (seen m) i = Some k -> Ent (buf s) size i k (live m k);
  r_live : forall k, live m k <> None -> In k (seen m);
  r_valid : valid s = N.of_nat (cnt (isLive m) (seen m));
  r_bids : forall b, bids s b = cnt (ofBid m b) (seen m);
  r_ok : forall b k r, live m k = Some (b, r) -> (b < 256 ^ 8)%N /\ length r = 5 }.

Lemma nth_lt : forall (l : list N) i k, nth_error l i = Some k -> i < length l.
Proof. intros l i k H. apply nth_error_Some. congruence. Qed.
Lemma nd_idx : forall (l : list N) i j k, NoDup l -> nth_error l i = Some k -> nth_error l j = Some k -> i = j.
Proof. intros l i j k ND A B. apply (proj1 (NoDup_nth_error l) ND); [eapply nth_lt; eauto|congruence]. Qed.
(** an entry's bytes lie in the buffer and apart from other entries' *)
Lemma room : forall size n i, fits size n -> i < n -> infoAt i + 24 <= place size i /\ place size i + 5 <= size /\ place size (n - 1) <= place size i.
Proof. unfold fits, place. intros size n i F L. rewrite info_eq. lia. Qed.
Lemma apart : forall size n i j, fits size n -> i < n -> j < n -> i <> j ->
  (infoAt i + 24 <= infoAt j \/ infoAt j + 24 <= infoAt i) /\ (place size i + 5 <= place size j \/ place size j + 5 <= place size i) /\ infoAt i + 24 <= place size j.
Proof. unfold fits, place. intros size n i j F L1 L2 Ne. rewrite !info_eq. lia. Qed.

(** changing entry [i] only *)
Lemma change : forall size s m d i k v va bi, R size s m -> nth_error (seen m) i = Some k -> length d = size ->
  rd 4 d 8 = Some (N.of_nat (length (seen m))) ->
  (forall j k', j <> i -> nth_error (seen m) j = Some k' -> Ent d size j k' (live m k')) -> Ent d size i k v ->
  (forall b r, v = Some (b, r) -> (b < 256 ^ 8)%N /\ length r = 5) ->
  let m' := mkS (upd (live m) k v) (seen m) in
  va = N.of_nat (cnt (isLive m') (seen m)) -> (forall b, bi b = cnt (ofBid m' b) (seen m)) ->
  R size (mkB d va (cur s) (stored s) bi) m'.
Proof.
  intros size s m d i k v va bi [A B C D E F G H I J K] NI L NU EO EI OK m' V Bi. subst m'. cbn [seen live] in V, Bi. constructor; cbn [buf cur stored valid bids seen live]; auto.
  - intros j k' Hj. destruct (Nat.eq_dec j i) as [->|Ne].
    + replace k' with k by congruence. now rewrite upd_same.
    + rewrite upd_other; [auto|]. intros ->. apply Ne. eapply nd_idx; eauto.
  - intros k' Hk. destruct (N.eq_dec k' k) as [->|Ne]; [eapply nth_error_In; eauto|]. rewrite upd_other in Hk by assumption. auto.
  - intros b k' r Hk. destruct (N.eq_dec k' k) as [->|Ne]; [rewrite upd_same in Hk; eauto|]. rewrite upd_other in Hk by assumption. eauto.
Qed.
Lemma u16_small : forall x, (x < 65536)%N -> u16 x = x.
Proof. intros. unfold u16. now apply N.mod_small. Qed.
Definition small (size : nat) : Prop := (12 <= N.of_nat size < 65536)%N.
Lemma count_small : forall size n, small size -> fits size n -> (N.of_nat n < 65535)%N.
Proof. unfold small, fits. intros. lia. Qed.

Definition upds (m : smap) (k : N) (v : option (N * list byte)) : smap := mkS (upd (live m) k v) (seen m).
Lemma live_upd : forall m k v x, isLive (upds m k v) x = if (x =? k)%N then match v with Some _ => true | None => false end else isLive m x.
Proof. intros. unfold isLive, upds, upd. cbn [live]. now destruct (x =? k)%N. Qed.
Lemma bid_upd : forall m k v b x, ofBid (upds m k v) b x = if (x =? k)%N then match v with Some (b', _) => (b' =? b)%N | None => false end else ofBid m b x.
Proof. intros. unfold ofBid, upds, upd. cbn [live]. now destruct (x =? k)%N. Qed.
Lemma cl : forall size s m i k v, R size s m -> nth_error (seen m) i = Some k ->
  cnt (isLive (upds m k v)) (seen m) + b2n (isLive m k) = cnt (isLive m) (seen m) + b2n (match v with Some _ => true | None => false end).
Proof.
  intros size s m i k v H E. rewrite (cnt_upd (isLive (upds m k v)) (isLive m) k); [now rewrite live_upd, N.eqb_refl|apply H|eapply nth_error_In; eauto|].
  intros x Ne. rewrite live_upd. now destruct (N.eqb_spec x k).
Qed.
Lemma cb : forall size s m i k v b, R size s m -> nth_error (seen m) i = Some k ->
  cnt (ofBid (upds m k v) b) (seen m) + b2n (ofBid m b k) = cnt (ofBid m b) (seen m) + b2n (match v with Some (b', _) => (b' =? b)%N | None => false end).
Proof.
  intros size s m i k v b H E. rewrite (cnt_upd (ofBid (upds m k v) b) (ofBid m b) k); [now rewrite bid_upd, N.eqb_refl|apply H|eapply nth_error_In; eauto|].
  intros x Ne. rewrite bid_upd. now destruct (N.eqb_spec x k).
Qed.
Lemma p8 : (256 ^ N.of_nat 8 = 256 ^ 8)%N. Proof. reflexivity. Qed.
Lemma rd_enc : forall d o w v d', wr d o (le_enc w v) = Some d' -> (v < 256 ^ N.of_nat w)%N -> rd w d' o = Some v.
Proof. intros d o w v d' H B. pose proof (rd_part d o (le_enc w v) d' [] w v [] H) as X. cbn [app length] in X. rewrite app_nil_r, Nat.add_0_r in X. now apply X. Qed.
Lemma rd1 : forall d o x d', wr d o [x] = Some d' -> rd 1 d' o = Some x.
Proof.
  intros d o x d' H. pose proof (sl_same _ _ _ _ H) as S. apply wr_inv in H. destruct H as [L ->]. cbn [length] in *. unfold rd. rewrite splice_length by assumption. rewrite (proj2 (Nat.leb_le _ _)) by lia. rewrite S. cbn. now rewrite N.add_0_r.
Qed.
Lemma removed_spec : forall d size i k v, Ent d size i k v -> removed d i = Some (match v with None => true | _ => false end).
Proof. intros d size i k v (_ & _ & (f & C1 & C2) & _). unfold removed. rewrite C1. now rewrite C2. Qed.
Lemma setRemoved_spec : forall d size i k v b, Ent d size i k v -> exists d', setRemoved d i b = Some d' /\ length d' = length d /\
  (exists x, wr d (flagAt i) [x] = Some d' /\ N.testbit x 0 = b).
Proof.
  intros d size i k v b (_ & _ & (f & C1 & C2) & _). unfold setRemoved. rewrite C1. pose proof (rd_some _ _ _ _ C1) as [L _].
  destruct (wr_some d (flagAt i) [if b then N.setbit f 0 else N.clearbit f 0] L) as (d' & W & L'). exists d'. split; [assumption|]. split; [assumption|]. eexists. split; [exact W|]. destruct b; [apply N.setbit_eq|apply N.clearbit_eq].
Qed.

Lemma remove_R : forall size s m k, small size -> R size s m -> exists s' x, remove s k = Some (s', x) /\ does size m (Remove k) = (match x with kOk => upds m k None | _ => m end, x) /\ (x = kOk \/ x = kNotFound) /\ R size s' (match x with kOk => upds m k None | _ => m end).
Proof.
  intros size s m k SM H. unfold remove. cbn [does]. destruct (stored s k) as [i|] eqn:E.
  - apply (r_str _ _ _ H) in E. pose proof (r_ent _ _ _ H _ _ E) as EN. rewrite (removed_spec _ _ _ _ _ EN). destruct (live m k) as [[b r]|] eqn:LV.
    + destruct (setRemoved_spec _ _ _ _ _ true EN) as (d' & S1 & S2 & x & S3 & S4). pose proof EN as (A & B & (f & C1 & C2) & b0 & D1 & D2 & D3). subst b0. rewrite D1, S1.
      eexists. exists kOk. split; [reflexivity|]. split; [reflexivity|]. split; [now left|]. pose proof (nth_lt _ _ _ E) as LT. pose proof (r_fit _ _ _ H) as F.
      apply (change size s m d' i k None); auto.
      * now rewrite S2, (r_len _ _ _ H).
      * rewrite (rd_other _ _ _ _ _ _ S3); [apply H|]. left. unfold flagAt. rewrite info_eq. lia.
      * intros j k' Ne Hj. pose proof (nth_lt _ _ _ Hj) as LJ. destruct (apart _ _ _ _ F LJ LT Ne) as (P1 & P2 & P3). destruct (apart _ _ _ _ F LT LJ (not_eq_sym Ne)) as (_ & _ & P4).
        eapply ent_frame; [exact S3| | |now apply (r_ent _ _ _ H)]; unfold flagAt; cbn [length]; lia.
      * destruct (room _ _ _ F LT) as (Q1 & Q2 & _). unfold Ent. repeat split.
        -- rewrite (rd_other _ _ _ _ _ _ S3); [exact A|]. unfold keyAt, flagAt. lia.
        -- rewrite (rd_other _ _ _ _ _ _ S3); [exact B|]. unfold posAt, flagAt. lia.
        -- exists x. split; [eapply rd1; eauto|assumption].
        -- exists b. split; [|exact I]. rewrite (rd_other _ _ _ _ _ _ S3); [exact D1|]. unfold bidAt, flagAt. lia.
      * discriminate.
      * fold (upds m k None). pose proof (cl _ _ _ _ _ None H E) as CL. unfold isLive in CL at 2. rewrite LV in CL. cbn [b2n] in CL. rewrite (r_valid _ _ _ H).
        pose proof (count_small _ _ SM F). pose proof (cnt_le (isLive m) (seen m)). unfold u16. replace (N.of_nat (cnt (isLive m) (seen m)) + 65535)%N with (N.of_nat (cnt (isLive (upds m k None)) (seen m)) + 1 * 65536)%N by lia. rewrite N.mod_add by lia. apply N.mod_small. lia.
      * intros b1. fold (upds m k None). pose proof (cb _ _ _ _ _ None b1 H E) as CB. unfold ofBid in CB at 2. rewrite LV in CB. unfold decBid. destruct (N.eqb_spec b1 b) as [->|Ne].
        -- rewrite upd_same. rewrite (r_bids _ _ _ H). rewrite N.eqb_refl in CB. cbn [b2n] in CB. lia.
        -- rewrite upd_other by assumption. rewrite (r_bids _ _ _ H). destruct (N.eqb_spec b b1); [congruence|]. cbn [b2n] in CB. lia.
    + exists s, kNotFound. auto.
  - exists s, kNotFound. split; [reflexivity|]. destruct (live m k) as [v|] eqn:LV; [|auto]. exfalso. assert (X : In k (seen m)) by (apply (r_live _ _ _ H); congruence). apply In_nth_error in X. destruct X as [i X]. apply (r_str _ _ _ H) in X. congruence.
Qed.
Lemma existsb_in : forall k l, existsb (N.eqb k) l = true <-> In k l.
Proof. intros. rewrite existsb_exists. split; [intros (x & I & E); apply N.eqb_eq in E; now subst|intros I; exists k; split; [assumption|apply N.eqb_refl]]. Qed.
(** the record of entry [i] is rewritten *)
Lemma rec_write : forall size s m i k d' r, R size s m -> nth_error (seen m) i = Some k -> length r = 5 -> wr (buf s) (place size i) r = Some d' ->
  length d' = size /\ rd 4 d' 8 = Some (N.of_nat (length (seen m))) /\ (forall j k', j <> i -> nth_error (seen m) j = Some k' -> Ent d' size j k' (live m k')) /\
  slice d' (place size i) 5 = r /\ (forall w off, off + w <= infoAt i + 24 -> rd w d' off = rd w (buf s) off).
Proof.
  intros size s m i k d' r H E L W. pose proof (nth_lt _ _ _ E) as LT. pose proof (r_fit _ _ _ H) as F. destruct (room _ _ _ F LT) as (Q1 & Q2 & _). pose proof W as W'. apply wr_inv in W'. destruct W' as [W1 W2]. split; [|split; [|split; [|split]]].
  - rewrite W2, splice_length by assumption. apply H.
  - rewrite (rd_other _ _ _ _ _ _ W); [apply H|]. left. rewrite info_eq in Q1. lia.
  - intros j k' Ne Hj. pose proof (nth_lt _ _ _ Hj) as LJ. destruct (apart _ _ _ _ F LJ LT Ne) as (P1 & P2 & P3).
    eapply ent_frame; [exact W| | |now apply (r_ent _ _ _ H)]; lia.
  - rewrite <- L. eapply sl_same; eauto.
  - intros w off B. apply (rd_other _ _ _ _ _ _ W). lia.
Qed.
Definition exact_add (size : nat) (m : smap) (b k : N) (r : list byte) (x : status) : smap :=
  match x with kFull => m | _ => fst (does size m (Add b k r)) end.
Lemma bid_write : forall size m d d' i bid, fits size (length (seen m)) -> i < length (seen m) -> wr d (bidAt i) (le_enc 8 bid) = Some d' -> length d = size ->
  rd 4 d 8 = Some (N.of_nat (length (seen m))) -> (forall j k', j <> i -> nth_error (seen m) j = Some k' -> Ent d size j k' (live m k')) ->
  length d' = size /\ rd 4 d' 8 = Some (N.of_nat (length (seen m))) /\ (forall j k', j <> i -> nth_error (seen m) j = Some k' -> Ent d' size j k' (live m k')) /\
  (forall w off, infoAt i + 8 <= off -> rd w d' off = rd w d off) /\ slice d' (place size i) 5 = slice d (place size i) 5.
Proof.
  intros size m d d' i bid F LT W L NU EO. destruct (room _ _ _ F LT) as (Q1 & Q2 & _). pose proof W as W'. apply wr_inv in W'. destruct W' as [W1 W2]. pose proof (le_enc_length 8 bid) as LE. unfold bidAt in *. split; [|split; [|split; [|split]]].
  - rewrite W2, splice_length by assumption. assumption.
  - rewrite (rd_other _ _ _ _ _ _ W); [assumption|]. left. rewrite info_eq. lia.
  - intros j k' Ne Hj. pose proof (nth_lt _ _ _ Hj) as LJ. destruct (apart _ _ _ _ F LJ LT Ne) as (P1 & P2 & P3). destruct (apart _ _ _ _ F LT LJ (not_eq_sym Ne)) as (_ & _ & P4).
    eapply ent_frame; [exact W| | |now apply EO]; rewrite ?LE; lia.
  - intros w off B. apply (rd_other _ _ _ _ _ _ W). rewrite LE. lia.
  - apply (sl_other _ _ _ _ _ _ W). rewrite LE. lia.
Qed.
Lemma add_old : forall size s m i b k r, small size -> R size s m -> (b < 256 ^ 8)%N -> length r = 5 -> stored s k = Some i ->
  exists s' x, add s b k r = Some (s', x) /\ x = (match live m k with Some _ => kUpdated | None => kOk end) /\ R size s' (upds m k (Some (b, r))).
Proof.
  intros size s m i b k r SM H OB LR E. unfold add. rewrite E. pose proof (proj1 (r_str _ _ _ H k i) E) as NI. pose proof (r_ent _ _ _ H _ _ NI) as EN. pose proof EN as (A & B & (f & C1 & C2) & b0 & D1 & D2).
  unfold entryPos. rewrite B, Nnat.Nat2N.id. pose proof (nth_lt _ _ _ NI) as LT. pose proof (r_fit _ _ _ H) as F. destruct (room _ _ _ F LT) as (Q1 & Q2 & _).
  destruct (wr_some (buf s) (place size i) r ltac:(rewrite (r_len _ _ _ H); lia)) as (d1 & W1 & _). rewrite W1.
  destruct (rec_write _ _ _ _ _ _ _ H NI LR W1) as (L1 & N1 & E1 & S1 & G1).
  assert (EN1 : Ent d1 size i k (match live m k with Some (b1, _) => Some (b1, r) | None => None end)).
  { unfold Ent, keyAt, posAt, flagAt, bidAt in *. rewrite !G1 by lia. repeat split; auto.
    - exists f. split; [assumption|]. rewrite C2. destruct (live m k) as [[? ?]|]; reflexivity.
    - exists b0. split; [assumption|]. destruct (live m k) as [[? ?]|]; [|exact I]. destruct D2 as [D2 _]. auto. }
  rewrite (removed_spec _ _ _ _ _ EN1). pose proof (cl _ _ _ _ _ (Some (b, r)) H NI) as CL. pose proof (fun b1 => cb _ _ _ _ _ (Some (b, r)) b1 H NI) as CB. unfold isLive in CL at 2. unfold ofBid in CB at 2.
  assert (OK : forall b1 r1, Some (b, r) = Some (b1, r1) -> (b1 < 256 ^ 8)%N /\ length r1 = 5) by (intros b1 r1 X; injection X as <- <-; auto).
  destruct (live m k) as [[b1 r1]|] eqn:LV.
  - destruct D2 as [-> D2]. assert (X : rd 8 d1 (bidAt i) = Some b1) by (unfold bidAt in *; rewrite G1 by lia; exact D1). rewrite X.
    destruct (negb (b1 =? b)%N) eqn:Q.
    + apply negb_true_iff, N.eqb_neq in Q.
      destruct (wr_some d1 (bidAt i) (le_enc 8 b) ltac:(rewrite le_enc_length, L1; unfold bidAt; lia)) as (d2 & W2 & _). rewrite W2.
      destruct (bid_write size m d1 d2 i b F LT W2 L1 N1 E1) as (L2 & N2 & E2 & G2 & S2).
      eexists. exists kUpdated. split; [reflexivity|]. split; [reflexivity|]. apply (change size s m d2 i k (Some (b, r))); auto.
      * destruct EN1 as (A1 & B1 & (f1 & C3 & C4) & _). unfold Ent, keyAt, posAt, flagAt in *. rewrite !G2 by lia. repeat split; auto; [exists f1; auto|]. exists b. split; [eapply rd_enc; eauto|]. split; [reflexivity|]. congruence.
      * fold (upds m k (Some (b, r))). rewrite (r_valid _ _ _ H). cbn [b2n] in CL. lia.
      * intros b2. fold (upds m k (Some (b, r))). specialize (CB b2). unfold incBid, decBid. pose proof (r_bids _ _ _ H b1) as RB1. pose proof (r_bids _ _ _ H b) as RB. pose proof (r_bids _ _ _ H b2) as RB2.
        destruct (N.eqb_spec b2 b) as [->|Ne].
        -- rewrite upd_same. rewrite upd_other by congruence. destruct (N.eqb_spec b1 b); [congruence|]. rewrite N.eqb_refl in CB. cbn [b2n] in CB. lia.
        -- rewrite upd_other by assumption. destruct (N.eqb_spec b2 b1) as [->|Ne1].
           ++ rewrite upd_same. rewrite N.eqb_refl in CB. destruct (N.eqb_spec b b1); [congruence|]. cbn [b2n] in CB. lia.
           ++ rewrite upd_other by assumption. destruct (N.eqb_spec b1 b2), (N.eqb_spec b b2); try congruence. cbn [b2n] in CB. lia.
    + apply negb_false_iff, N.eqb_eq in Q. subst b1. eexists. exists kUpdated. split; [reflexivity|]. split; [reflexivity|]. apply (change size s m d1 i k (Some (b, r))); auto.
      * fold (upds m k (Some (b, r))). rewrite (r_valid _ _ _ H). cbn [b2n] in CL. lia.
      * intros b2. fold (upds m k (Some (b, r))). specialize (CB b2). rewrite (r_bids _ _ _ H). lia.
  - destruct (setRemoved_spec _ _ _ _ _ false EN1) as (d2 & S3 & S4 & x & S5 & S6). rewrite S3.
    assert (L2 : length d2 = size) by congruence.
    assert (N2 : rd 4 d2 8 = Some (N.of_nat (length (seen m)))) by (rewrite (rd_other _ _ _ _ _ _ S5); [assumption|left; unfold flagAt; rewrite info_eq; lia]).
    assert (E2 : forall j k', j <> i -> nth_error (seen m) j = Some k' -> Ent d2 size j k' (live m k')).
    { intros j k' Ne Hj. pose proof (nth_lt _ _ _ Hj) as LJ. destruct (apart _ _ _ _ F LJ LT Ne) as (P1 & P2 & P3). destruct (apart _ _ _ _ F LT LJ (not_eq_sym Ne)) as (_ & _ & P4).
      eapply ent_frame; [exact S5| | |now apply E1]; unfold flagAt; cbn [length]; lia. }
    destruct (wr_some d2 (bidAt i) (le_enc 8 b) ltac:(rewrite le_enc_length, L2; unfold bidAt; lia)) as (d3 & W3 & _). rewrite W3.
    destruct (bid_write size m d2 d3 i b F LT W3 L2 N2 E2) as (L3 & N3 & E3 & G3 & S7).
    eexists. exists kOk. split; [reflexivity|]. split; [reflexivity|]. apply (change size s m d3 i k (Some (b, r))); auto.
    + destruct EN1 as (A1 & B1 & _). unfold Ent, keyAt, posAt, flagAt in *. rewrite !G3 by lia. rewrite !(rd_other _ _ _ _ _ _ S5) by (cbn [length]; lia). repeat split; auto; [exists x; split; [eapply rd1; eauto|assumption]|].
      exists b. split; [eapply rd_enc; eauto|]. split; [reflexivity|]. rewrite S7. rewrite (sl_other _ _ _ _ _ _ S5) by (cbn [length]; lia). assumption.
    + fold (upds m k (Some (b, r))). rewrite (r_valid _ _ _ H). cbn [b2n] in CL. pose proof (count_small _ _ SM F). pose proof (cnt_le (isLive m) (seen m)). rewrite u16_small by lia. lia.
    + intros b2. fold (upds m k (Some (b, r))). specialize (CB b2). unfold incBid. destruct (N.eqb_spec b2 b) as [->|Ne].
      * rewrite upd_same. rewrite (r_bids _ _ _ H). rewrite N.eqb_refl in CB. cbn [b2n] in CB. lia.
      * rewrite upd_other by assumption. rewrite (r_bids _ _ _ H). destruct (N.eqb_spec b b2); [congruence|]. cbn [b2n] in CB. lia.
Qed.
