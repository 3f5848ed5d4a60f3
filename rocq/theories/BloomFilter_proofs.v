From Coq Require Import ZifyBool ZifyNat ZifyN.
From Verif Require Import Bytes BloomFilter_model BloomFilter_spec BloomFilter_client.
Local Open Scope N_scope.

Definition gbit (d : list byte) (g : N) : bool := N.testbit (nth (N.to_nat (g / 8)) d 0) (g mod 8).

Lemma shr3 b : N.shiftr b 3 = b / 8.
Proof. rewrite N.shiftr_div_pow2. reflexivity. Qed.
Lemma land7 b : N.land b 7 = b mod 8.
Proof. change 7 with (N.ones 3). rewrite N.land_ones. reflexivity. Qed.

Lemma base_div (base : nat) bit : (8 * N.of_nat base + bit) / 8 = N.of_nat base + bit / 8.
Proof. lia. Qed.
Lemma base_mod (base : nat) bit : (8 * N.of_nat base + bit) mod 8 = bit mod 8.
Proof. lia. Qed.

Lemma nth_error_in {A} (l : list A) i d : (i < length l)%nat -> nth_error l i = Some (nth i l d).
Proof. intros. now apply nth_error_nth'. Qed.

Lemma land_shiftl1 b j : negb (N.land b (N.shiftl 1 j) =? 0) = N.testbit b j.
Proof.
  destruct (N.testbit b j) eqn:E.
  - apply negb_true_iff. apply N.eqb_neq. intros H.
    assert (N.testbit (N.land b (N.shiftl 1 j)) j = false) by (rewrite H; apply N.bits_0).
    rewrite N.land_spec, E, N.shiftl_spec_high', N.sub_diag in H0 by lia. discriminate.
  - apply negb_false_iff. apply N.eqb_eq. apply N.bits_inj. intros k.
    rewrite N.land_spec, N.bits_0.
    destruct (N.eq_dec k j) as [->|Hk]; [now rewrite E|].
    rewrite N.shiftl_1_l, N.pow2_bits_false by lia. apply andb_false_r.
Qed.

Lemma bitGet_spec d base bit : (N.of_nat base + bit / 8 < N.of_nat (length d)) ->
  bitGet d base bit = Some (gbit d (8 * N.of_nat base + bit)).
Proof.
  intros H. unfold bitGet. rewrite shr3, land7.
  rewrite (nth_error_in d _ 0) by lia. rewrite land_shiftl1.
  unfold gbit. rewrite base_div, base_mod. do 3 f_equal. lia.
Qed.

Lemma nth_splice1 (d : list byte) i v j : (i < length d)%nat ->
  nth j (splice d i [v]) 0 = if (j =? i)%nat then v else nth j d 0.
Proof.
  intros H. unfold splice. cbn [length].
  destruct (Nat.eqb_spec j i) as [->|Hj].
  - rewrite app_nth2; rewrite firstn_length; [|lia].
    replace (i - Nat.min i (length d))%nat with 0%nat by lia. reflexivity.
  - destruct (Nat.lt_ge_cases j i).
    + rewrite app_nth1 by (rewrite firstn_length; lia).
      rewrite <- (firstn_skipn i d) at 2. rewrite app_nth1 by (rewrite firstn_length; lia). reflexivity.
    + rewrite app_nth2; rewrite firstn_length; [|lia].
      replace (j - Nat.min i (length d))%nat with (S (j - i - 1))%nat by lia. cbn [nth app].
      rewrite <- (firstn_skipn (i + 1) d) at 2.
      rewrite app_nth2; rewrite firstn_length; [|lia]. f_equal. lia.
Qed.

Lemma bitSet_spec d base bit : (N.of_nat base + bit / 8 < N.of_nat (length d)) ->
  exists d', bitSet d base bit = Some d' /\ length d' = length d /\
    forall g, gbit d' g = gbit d g || (8 * N.of_nat base + bit =? g).
Proof.
  intros H. unfold bitSet. rewrite shr3, land7.
  rewrite (nth_error_in d _ 0) by lia. unfold wr. cbn [length].
  destruct (Nat.leb_spec (base + N.to_nat (bit / 8) + 1) (length d)); [|lia].
  eexists. split; [reflexivity|]. split; [apply splice_length; cbn; lia|].
  intros g. unfold gbit. rewrite nth_splice1 by lia.
  destruct (Nat.eqb_spec (N.to_nat (g / 8)) (base + N.to_nat (bit / 8))) as [E|E].
  - rewrite E, N.lor_spec. f_equal.
    destruct (N.eqb_spec (8 * N.of_nat base + bit) g) as [<-|Hne].
    + rewrite base_mod. rewrite N.shiftl_1_l, N.pow2_bits_true. reflexivity.
    + rewrite N.shiftl_1_l. apply N.pow2_bits_false. lia.
  - destruct (N.eqb_spec (8 * N.of_nat base + bit) g) as [<-|Hne]; [lia|].
    now rewrite orb_false_r.
Qed.

Section S.
Variable comb : N -> N -> N.
Variable ht : N.
Hypothesis Hht : 0 < ht.

Fixpoint poss (sds : list N) (fb key : N) : list N :=
  match sds with
  | [] => []
  | sd :: r => fb + comb key sd mod ht :: poss r (fb + ht) key
  end.

Lemma mod_ht a : a mod ht < ht.
Proof. apply N.mod_lt. lia. Qed.

Lemma setLoop_spec : forall sds fb d base key fbs,
  fb + N.of_nat (length sds) * ht <= 8 * fbs -> 8 * fbs < two64 ->
  N.of_nat base + fbs <= N.of_nat (length d) ->
  exists d', setLoop comb sds fb d base ht key = Some d' /\ length d' = length d /\
    forall g, gbit d' g = gbit d g || existsb (fun p => 8 * N.of_nat base + p =? g) (poss sds fb key).
Proof.
  induction sds as [|sd r IH]; intros fb d base key fbs H1 H2 H3; cbn [setLoop poss].
  - exists d. repeat split. intros g. cbn. now rewrite orb_false_r.
  - cbn [length] in H1. pose proof (mod_ht (comb key sd)) as Hm.
    rewrite Nat2N.inj_succ, N.mul_succ_l in H1.
    unfold wrap64. rewrite (N.mod_small (fb + ht)), (N.mod_small (fb + comb key sd mod ht)) by lia.
    destruct (bitSet_spec d base (fb + comb key sd mod ht)) as (d1 & E1 & L1 & G1); [lia|].
    rewrite E1.
    destruct (IH (fb + ht) d1 base key fbs) as (d2 & E2 & L2 & G2); [lia|lia|lia|].
    exists d2. split; [exact E2|]. split; [congruence|].
    intros g. rewrite G2, G1. cbn [existsb]. now rewrite orb_assoc.
Qed.

Lemma existLoop_spec : forall sds fb d base key fbs,
  fb + N.of_nat (length sds) * ht <= 8 * fbs -> 8 * fbs < two64 ->
  N.of_nat base + fbs <= N.of_nat (length d) ->
  existLoop comb sds fb d base ht key
  = Some (forallb (fun p => gbit d (8 * N.of_nat base + p)) (poss sds fb key)).
Proof.
  induction sds as [|sd r IH]; intros fb d base key fbs H1 H2 H3; cbn [existLoop poss forallb].
  - reflexivity.
  - cbn [length] in H1. pose proof (mod_ht (comb key sd)) as Hm.
    rewrite Nat2N.inj_succ, N.mul_succ_l in H1.
    unfold wrap64. rewrite (N.mod_small (fb + ht)), (N.mod_small (fb + comb key sd mod ht)) by lia.
    rewrite bitGet_spec by lia.
    destruct (gbit d (8 * N.of_nat base + (fb + comb key sd mod ht))); cbn [andb]; [|reflexivity].
    apply (IH (fb + ht) d base key fbs); lia.
Qed.

Lemma poss_range : forall sds fb key p, In p (poss sds fb key) ->
  fb <= p < fb + N.of_nat (length sds) * ht.
Proof.
  induction sds as [|sd r IH]; intros fb key p Hin; [destruct Hin|].
  cbn [poss length] in *. rewrite Nat2N.inj_succ, N.mul_succ_l.
  pose proof (mod_ht (comb key sd)). destruct Hin as [<-|Hin]; [lia|].
  apply IH in Hin. lia.
Qed.

Lemma existsb_ext_in {A} (f g : A -> bool) l : (forall x, In x l -> f x = g x) -> existsb f l = existsb g l.
Proof.
  induction l as [|x l IH]; intros H; [reflexivity|]. cbn [existsb].
  rewrite H by (now left). f_equal. apply IH. intros y Hy. apply H. now right.
Qed.
Lemma forallb_ext_in {A} (f g : A -> bool) l : (forall x, In x l -> f x = g x) -> forallb f l = forallb g l.
Proof.
  induction l as [|x l IH]; intros H; [reflexivity|]. cbn [forallb].
  rewrite H by (now left). f_equal. apply IH. intros y Hy. apply H. now right.
Qed.
Lemma existsb_false {A} (f : A -> bool) l : (forall x, In x l -> f x = false) -> existsb f l = false.
Proof.
  induction l as [|x l IH]; intros H; [reflexivity|]. cbn [existsb].
  rewrite H by (now left). apply IH. intros y Hy. apply H. now right.
Qed.

Lemma poss_exact : forall sds fb key L,
  forallb (fun p => existsb (fun k => existsb (fun q => q =? p) (poss sds fb k)) L) (poss sds fb key)
  = forallb (fun sd => existsb (fun k => comb k sd mod ht =? comb key sd mod ht) L) sds.
Proof.
  induction sds as [|sd r IH]; intros fb key L; [reflexivity|].
  cbn [poss forallb existsb]. f_equal.
  - apply existsb_ext_in. intros k _.
    rewrite existsb_false.
    + rewrite orb_false_r. pose proof (mod_ht (comb k sd)). lia.
    + intros p Hp. apply poss_range in Hp. pose proof (mod_ht (comb key sd)). lia.
  - rewrite <- (IH (fb + ht)). apply forallb_ext_in. intros p Hp. apply poss_range in Hp.
    apply existsb_ext_in. intros k _. pose proof (mod_ht (comb k sd)).
    destruct (N.eqb_spec (fb + comb k sd mod ht) p); [lia|reflexivity].
Qed.
End S.

(** ** The array of filters *)
Lemma bitsToBytes_eq b : b + 7 < two64 -> bitsToBytes b = (b + 7) / 8.
Proof.
  intros H. unfold bitsToBytes, wrap64. rewrite N.mod_small by lia.
  apply N.bits_inj. intros i. rewrite N.shiftr_spec', N.ldiff_spec.
  rewrite <- shr3, N.shiftr_spec'. change 7 with (N.ones 3) at 2.
  rewrite N.ones_spec_high by lia. now rewrite andb_true_r.
Qed.

Section A.
Variable comb : N -> N -> N.

Record Inv (f : bf) (nf : N) (sds : list N) (ht : N) (hist : list fop) : Prop := {
  inv_nf : numFilters f = nf;
  inv_ht : hashTableBitSize f = ht;
  inv_pos : 0 < nf /\ 0 < ht;
  inv_sds : seeds f = sds;
  inv_fit : N.of_nat (length sds) * ht <= 8 * filterByteSize f;
  inv_sz : nf * (8 * filterByteSize f) < two64;
  inv_len : N.of_nat (length (bits f)) = nf * filterByteSize f;
  inv_bits : forall idx p, idx < nf -> p < N.of_nat (length sds) * ht ->
     gbit (bits f) (8 * (idx * filterByteSize f) + p)
     = existsb (fun k => existsb (fun q => q =? p) (poss comb ht sds 0 k)) (live idx hist)
}.

Lemma gbit_repeat0 n g : gbit (repeat 0 n) g = false.
Proof.
  unfold gbit. rewrite nth_repeat. apply N.bits_0.
Qed.

Lemma make_ok hint nf nh ht : params_ok nf nh ht ->
  exists f, makeBF hint nf nh ht = Some f /\
    Inv f nf (map (fun i => hint (N.of_nat i)) (seq 0 (N.to_nat nh))) ht [].
Proof.
  intros (H1 & H2 & H3 & H4). unfold makeBF.
  destruct (N.eqb_spec nf 0), (N.eqb_spec nh 0), (N.eqb_spec ht 0); try lia. cbn [orb].
  assert (Hs : nh * ht + 8 < two64) by nia.
  assert (E : bitsToBytes (wrap64 (nh * ht)) = (nh * ht + 7) / 8).
  { unfold wrap64. rewrite (N.mod_small (nh * ht)) by lia. rewrite bitsToBytes_eq by lia. reflexivity. }
  rewrite E. set (fbs := (nh * ht + 7) / 8) in *.
  assert (F1 : nh * ht <= 8 * fbs) by (unfold fbs; lia).
  assert (F2 : 8 * fbs <= nh * ht + 7) by (unfold fbs; lia).
  assert (F3 : nf * (8 * fbs) < two64) by nia.
  eexists. split; [reflexivity|].
  constructor; cbn [numFilters hashTableBitSize filterByteSize seeds bits]; auto.
  - rewrite map_length, seq_length. lia.
  - rewrite repeat_length. unfold wrap64. rewrite N.mod_small by lia. lia.
  - intros idx p Hi Hp. cbn [live existsb]. apply gbit_repeat0.
Qed.

Lemma filterOff_eq f nf sds ht hist idx : Inv f nf sds ht hist -> idx < nf ->
  N.of_nat (filterOff f idx) = idx * filterByteSize f /\
  idx * filterByteSize f + filterByteSize f <= N.of_nat (length (bits f)) /\
  8 * filterByteSize f < two64.
Proof.
  intros I Hi. pose proof (inv_sz _ _ _ _ _ I). pose proof (inv_pos _ _ _ _ _ I).
  rewrite (inv_len _ _ _ _ _ I).
  unfold filterOff, wrap64. rewrite N.mod_small by nia. rewrite N2Nat.id. nia.
Qed.

Lemma set_ok f nf sds ht hist idx key : Inv f nf sds ht hist -> idx < nf ->
  exists f', set comb f idx key = Some f' /\ Inv f' nf sds ht (FSet idx key :: hist)
    /\ filterByteSize f' = filterByteSize f.
Proof.
  intros I Hi. destruct (filterOff_eq f nf sds ht hist idx I Hi) as (Ho & Hb & H8).
  unfold set. rewrite (inv_sds _ _ _ _ _ I), (inv_ht _ _ _ _ _ I).
  pose proof (inv_fit _ _ _ _ _ I) as Hfit. pose proof (inv_pos _ _ _ _ _ I) as [Hnf Hht].
  destruct (setLoop_spec comb ht Hht sds 0 (bits f) (filterOff f idx) key (filterByteSize f))
    as (d' & E & L & G); [lia|lia|lia|].
  rewrite E. eexists. split; [reflexivity|]. split; [|reflexivity].
  constructor; cbn [numFilters hashTableBitSize filterByteSize seeds bits]; try apply I; auto.
  - rewrite L. apply I.
  - intros i p Hi' Hp. rewrite G, Ho. rewrite (inv_bits _ _ _ _ _ I i p Hi' Hp).
    cbn [live]. destruct (N.eqb_spec idx i) as [->|Hne].
    + cbn [existsb]. rewrite orb_comm. f_equal. apply existsb_ext_in. intros q _. lia.
    + rewrite (existsb_false (fun q => 8 * (idx * filterByteSize f) + q =? 8 * (i * filterByteSize f) + p)).
      { apply orb_false_r. }
      intros q Hq. apply poss_range in Hq; [|assumption].
      apply N.eqb_neq. nia.
Qed.

Lemma exist_ok f nf sds ht hist idx key : Inv f nf sds ht hist -> idx < nf ->
  couldExist comb f idx key =
  Some (forallb (fun sd => existsb (fun k => comb k sd mod ht =? comb key sd mod ht) (live idx hist)) sds).
Proof.
  intros I Hi. destruct (filterOff_eq f nf sds ht hist idx I Hi) as (Ho & Hb & H8).
  unfold couldExist. rewrite (inv_sds _ _ _ _ _ I), (inv_ht _ _ _ _ _ I).
  pose proof (inv_fit _ _ _ _ _ I) as Hfit. pose proof (inv_pos _ _ _ _ _ I) as [Hnf Hht].
  rewrite (existLoop_spec comb ht Hht sds 0 (bits f) (filterOff f idx) key (filterByteSize f)) by lia.
  f_equal. rewrite <- (poss_exact comb ht Hht sds 0 key (live idx hist)).
  apply forallb_ext_in. intros p Hp. apply poss_range in Hp; [|assumption].
  rewrite Ho. apply (inv_bits _ _ _ _ _ I); [assumption|lia].
Qed.

Lemma nth_splice_range (d new : list byte) i j : (i + length new <= length d)%nat ->
  nth j (splice d i new) 0 =
  if (i <=? j)%nat && (j <? i + length new)%nat then nth (j - i) new 0 else nth j d 0.
Proof.
  intros H. unfold splice.
  destruct (Nat.leb_spec i j); cbn [andb].
  - rewrite app_nth2; rewrite firstn_length; [|lia].
    replace (j - Nat.min i (length d))%nat with (j - i)%nat by lia.
    destruct (Nat.ltb_spec j (i + length new)).
    + apply app_nth1. lia.
    + rewrite app_nth2 by lia.
      rewrite <- (firstn_skipn (i + length new) d) at 2.
      rewrite app_nth2; rewrite firstn_length; [|lia]. f_equal. lia.
  - rewrite app_nth1 by (rewrite firstn_length; lia).
    rewrite <- (firstn_skipn i d) at 2. rewrite app_nth1 by (rewrite firstn_length; lia). reflexivity.
Qed.

Lemma gbit_zero_range d i n g : (i + n <= length d)%nat ->
  gbit (splice d i (repeat 0 n)) g =
  if (8 * N.of_nat i <=? g) && (g <? 8 * N.of_nat (i + n)) then false else gbit d g.
Proof.
  intros H. unfold gbit. rewrite nth_splice_range; rewrite repeat_length; [|assumption].
  replace ((i <=? N.to_nat (g / 8))%nat && (N.to_nat (g / 8) <? i + n)%nat)
    with ((8 * N.of_nat i <=? g) && (g <? 8 * N.of_nat (i + n))) by lia.
  destruct (_ && _); [|reflexivity].
  rewrite nth_repeat. apply N.bits_0.
Qed.

Lemma clear_ok f nf sds ht hist idx : Inv f nf sds ht hist -> idx < nf ->
  exists f', clear f idx = Some f' /\ Inv f' nf sds ht (FClear idx :: hist)
    /\ filterByteSize f' = filterByteSize f.
Proof.
  intros I Hi. destruct (filterOff_eq f nf sds ht hist idx I Hi) as (Ho & Hb & H8).
  unfold clear, wr. rewrite repeat_length.
  destruct (Nat.leb_spec (filterOff f idx + N.to_nat (filterByteSize f)) (length (bits f))); [|lia].
  eexists. split; [reflexivity|]. split; [|reflexivity].
  pose proof (inv_fit _ _ _ _ _ I) as Hfit. pose proof (inv_pos _ _ _ _ _ I) as [Hnf Hht].
  constructor; cbn [numFilters hashTableBitSize filterByteSize seeds bits]; try apply I; auto.
  - rewrite splice_length by (rewrite repeat_length; lia). apply I.
  - intros i p Hi' Hp. rewrite gbit_zero_range by assumption.
    cbn [live]. destruct (N.eqb_spec idx i) as [->|Hne].
    + destruct (_ && _) eqn:E; [reflexivity|exfalso].
      rewrite Nat2N.inj_add, N2Nat.id, Ho in E. lia.
    + destruct (_ && _) eqn:E; [exfalso|apply (inv_bits _ _ _ _ _ I); assumption].
      rewrite Nat2N.inj_add, N2Nat.id, Ho in E. nia.
Qed.

Lemma reset_ok f nf sds ht hist : Inv f nf sds ht hist ->
  exists f', reset f = Some f' /\ Inv f' nf sds ht (FReset :: hist)
    /\ filterByteSize f' = filterByteSize f.
Proof.
  intros I. pose proof (inv_len _ _ _ _ _ I) as HL. pose proof (inv_sz _ _ _ _ _ I) as HS.
  assert (EB : getByteSize f = nf * filterByteSize f).
  { unfold getByteSize, wrap64. rewrite (inv_nf _ _ _ _ _ I). apply N.mod_small. nia. }
  unfold reset, wr. rewrite repeat_length, EB.
  destruct (Nat.leb_spec (0 + N.to_nat (nf * filterByteSize f)) (length (bits f))); [|lia].
  eexists. split; [reflexivity|]. split; [|reflexivity].
  pose proof (inv_fit _ _ _ _ _ I) as Hfit. pose proof (inv_pos _ _ _ _ _ I) as [Hnf Hht].
  constructor; cbn [numFilters hashTableBitSize filterByteSize seeds bits]; try apply I; auto.
  - rewrite splice_length by (rewrite repeat_length; lia). apply I.
  - intros i p Hi' Hp. rewrite gbit_zero_range by assumption. cbn [live existsb].
    destruct (_ && _) eqn:E; [reflexivity|exfalso]. rewrite Nat2N.inj_add, N2Nat.id in E. nia.
Qed.

Lemma frun_ok f0 nf sds ht h0 hist : Inv f0 nf sds ht h0 -> Forall (fop_ok nf) hist ->
  exists f, frun comb f0 hist = Some f /\ Inv f nf sds ht (hist ++ h0)
    /\ filterByteSize f = filterByteSize f0.
Proof.
  intros I. induction hist as [|o r IH]; intros Hok; cbn [frun app].
  - exists f0. auto.
  - inversion Hok as [|? ? Ho Hr]; subst. destruct (IH Hr) as (f1 & -> & I1 & B1).
    destruct o as [i k|i|]; cbn in Ho.
    + destruct (set_ok f1 nf sds ht _ i k I1 Ho) as (f2 & -> & I2 & B2). exists f2. repeat split; auto; try apply I2; congruence.
    + destruct (clear_ok f1 nf sds ht _ i I1 Ho) as (f2 & -> & I2 & B2). exists f2. repeat split; auto; try apply I2; congruence.
    + destruct (reset_ok f1 nf sds ht _ I1) as (f2 & -> & I2 & B2). exists f2. repeat split; auto; try apply I2; congruence.
Qed.

(** ** Persistence *)
Lemma fragLoop_ok d frag : 0 < frag -> forall fuel off size,
  size = N.of_nat (length d) -> off <= size -> (N.to_nat (size - off) < fuel)%nat ->
  exists recs, fragLoop fuel d off size frag = Some recs /\ concat recs = skipn (N.to_nat off) d
    /\ Forall (fun r => r <> []) recs.
Proof.
  intros Hf. induction fuel as [|fuel IH]; intros off size Hs Ho Hfu; [lia|].
  cbn [fragLoop]. destruct (N.ltb_spec off size) as [Hlt|Hge].
  - set (n := N.min (size - off) frag).
    assert (Hn : 0 < n <= size - off) by (unfold n; lia).
    unfold rd_bytes. destruct (Nat.leb_spec (N.to_nat off + N.to_nat n) (length d)); [|lia].
    destruct (IH (off + n) size) as (recs & E & C & F); [assumption|lia|lia|].
    rewrite E. eexists. split; [reflexivity|]. split.
    + cbn [concat]. rewrite C. unfold slice.
      replace (N.to_nat (off + n)) with (N.to_nat n + N.to_nat off)%nat by lia.
      rewrite skipn_add. apply firstn_skipn.
    + constructor; [|assumption]. intros Hnil.
      assert (length (slice d (N.to_nat off) (N.to_nat n)) = 0)%nat by (now rewrite Hnil).
      rewrite slice_length in H0 by lia. lia.
  - exists []. split; [reflexivity|]. split; [|constructor].
    cbn. rewrite skipn_all2 by lia. reflexivity.
Qed.

Lemma fakeLoop_ok frag : 0 < frag -> forall fuel off size,
  off <= size -> (N.to_nat (size - off) < fuel)%nat ->
  exists recs, fakeLoop fuel off size frag = Some recs
    /\ N.of_nat (length (concat recs)) = size - off /\ Forall (fun r => r <> []) recs.
Proof.
  intros Hf. induction fuel as [|fuel IH]; intros off size Ho Hfu; [lia|].
  cbn [fakeLoop]. destruct (N.ltb_spec off size) as [Hlt|Hge].
  - set (n := N.min (size - off) frag).
    assert (Hn : 0 < n <= size - off) by (unfold n; lia).
    destruct (IH (off + n) size) as (recs & E & C & F); [lia|lia|].
    rewrite E. eexists. split; [reflexivity|]. split.
    + cbn [concat]. rewrite app_length, repeat_length. lia.
    + constructor; [|assumption]. intros Hnil.
      apply (f_equal (@length byte)) in Hnil. rewrite repeat_length in Hnil. cbn in Hnil. lia.
  - exists []. split; [reflexivity|]. split; [cbn; lia|constructor].
Qed.

Lemma deserLoop_ok : forall recs tail d off size fuel,
  Forall (fun r => r <> []) recs ->
  N.of_nat (length d) = size -> off + N.of_nat (length (concat recs)) = size ->
  (length recs < fuel)%nat ->
  deserLoop fuel d off size (recs ++ tail) = ROk (firstn (N.to_nat off) d ++ concat recs, tail).
Proof.
  induction recs as [|r recs IH]; intros tail d off size fuel Hne Hd Ho Hfu.
  - cbn [concat length] in Ho. destruct fuel; [lia|]. cbn [deserLoop app concat].
    destruct (N.ltb_spec off size); [lia|].
    rewrite app_nil_r, firstn_all2 by lia. reflexivity.
  - inversion Hne as [|? ? Hr Hrs]; subst. cbn [concat length app] in *. rewrite app_length in Ho.
    destruct fuel as [|fuel]; [lia|]. cbn [deserLoop app].
    assert (0 < length r)%nat by (destruct r; [congruence|cbn; lia]).
    destruct (N.ltb_spec off (N.of_nat (length d))); [|lia].
    unfold wr. destruct (Nat.leb_spec (N.to_nat off + length r) (length d)); [|lia].
    rewrite (IH tail _ (off + N.of_nat (length r)) (N.of_nat (length d)) fuel); [|assumption| |lia|lia].
    + f_equal. f_equal. rewrite app_assoc. f_equal.
      unfold splice. rewrite firstn_app, firstn_firstn, firstn_length.
      replace (Nat.min (N.to_nat (off + N.of_nat (length r))) (N.to_nat off)) with (N.to_nat off) by lia.
      f_equal. rewrite firstn_app.
      replace (_ - _ - length r)%nat with 0%nat by lia.
      cbn [firstn]. rewrite app_nil_r, firstn_all2 by lia. reflexivity.
    + f_equal. apply splice_length. lia.
Qed.

Lemma skipLoop_ok : forall recs tail off size fuel,
  Forall (fun r => r <> []) recs ->
  off + N.of_nat (length (concat recs)) = size ->
  (length recs < fuel)%nat ->
  skipLoop fuel off size (recs ++ tail) = ROk tail.
Proof.
  induction recs as [|r recs IH]; intros tail off size fuel Hne Ho Hfu.
  - cbn [concat length] in Ho. destruct fuel; [lia|]. cbn [skipLoop app].
    destruct (N.ltb_spec off size); [lia|]. reflexivity.
  - inversion Hne as [|? ? Hr Hrs]; subst. cbn [concat length app] in *. rewrite app_length in *.
    destruct fuel as [|fuel]; [lia|]. cbn [skipLoop app].
    assert (0 < length r)%nat by (destruct r; [congruence|cbn; lia]).
    destruct (N.ltb_spec off (off + N.of_nat (length r + length (concat recs)))); [|lia].
    apply IH; [assumption|lia|lia].
Qed.

Lemma persist_ok frag f g nf sds ht hist h2 :
  0 < frag -> nf + 7 < two64 ->
  Inv f nf sds ht hist -> Inv g nf sds ht h2 -> filterByteSize g = filterByteSize f ->
  exists h recs, persistWith frag f = Some (h, recs) /\
    forall tail, recoverWith frag g h (recs ++ tail) = ROk f.
Proof.
  intros Hf Hnf I J HB.
  assert (EB : getByteSize f = nf * filterByteSize f).
  { unfold getByteSize, wrap64. rewrite (inv_nf _ _ _ _ _ I). apply N.mod_small.
    pose proof (inv_sz _ _ _ _ _ I). nia. }
  assert (EG : getByteSize g = nf * filterByteSize f).
  { unfold getByteSize, wrap64. rewrite (inv_nf _ _ _ _ _ J), HB. apply N.mod_small.
    pose proof (inv_sz _ _ _ _ _ I). nia. }
  pose proof (inv_len _ _ _ _ _ I) as HL. pose proof (inv_len _ _ _ _ _ J) as HLg.
  unfold persistWith, serializeBits. rewrite EB.
  destruct (fragLoop_ok (bits f) frag Hf (S (N.to_nat (nf * filterByteSize f))) 0
              (nf * filterByteSize f)) as (ra & Ea & Ca & Fa); [lia|lia|lia|].
  rewrite Ea.
  destruct (fakeLoop_ok frag Hf (S (N.to_nat (bitsToBytes (numFilters f)))) 0
              (bitsToBytes (numFilters f))) as (rb & Eb & Cb & Fb); [lia|lia|].
  rewrite Eb. do 2 eexists. split; [reflexivity|].
  intros tail. unfold recoverWith.
  cbn [h_numFilters h_hashTableBitSize h_filterByteSize h_fragmentSize h_seeds].
  rewrite (inv_nf _ _ _ _ _ I), (inv_nf _ _ _ _ _ J), (inv_ht _ _ _ _ _ I), (inv_ht _ _ _ _ _ J), HB, !N.eqb_refl.
  cbn [andb negb].
  rewrite (inv_sds _ _ _ _ _ I), (inv_sds _ _ _ _ _ J). unfold recoverSeeds.
  rewrite Nat.leb_refl, skipn_all, app_nil_r. rewrite EG.
  rewrite <- app_assoc. cbn [N.to_nat skipn] in Ca.
  rewrite deserLoop_ok; [|assumption|lia|rewrite Ca; lia|rewrite !app_length; lia].
  rewrite Ca. cbn [N.to_nat firstn app].
  rewrite skipLoop_ok; [|assumption| |rewrite !app_length; lia].
  - f_equal. destruct f; cbn in *. f_equal; symmetry; apply I.
  - rewrite (inv_nf _ _ _ _ _ I) in Cb. lia.
Qed.
End A.
