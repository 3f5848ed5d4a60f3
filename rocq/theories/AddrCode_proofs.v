From Coq Require Import NArith ZArith List Lia Bool.
From Coq Require Import Floats.SpecFloat.
From Verif Require Import AddrCode_model AddrCode_spec.
Local Open Scope N_scope.

Lemma powTwoAlign_eq s k : k < 64 -> s + (2 ^ k - 1) < U64 ->
  powTwoAlign s (2 ^ k) = (s + (2 ^ k - 1)) / 2 ^ k * 2 ^ k.
Proof.
  intros Hk Hs. unfold powTwoAlign. rewrite N.mod_small by auto.
  set (x := s + (2 ^ k - 1)) in *. clearbody x.
  rewrite <- N.shiftr_div_pow2, <- N.shiftl_mul_pow2, <- N.ldiff_ones_r.
  unfold U64 in *.
  replace (2 ^ 64 - 1) with (N.ones 64) by reflexivity.
  replace (2 ^ k - 1) with (N.ones k) by (rewrite N.ones_equiv; lia).
  apply N.bits_inj. intro i. rewrite N.land_spec, !N.ldiff_spec.
  destruct (N.ltb_spec i 64) as [Hi|Hi].
  - rewrite (N.ones_spec_low 64 i) by auto. reflexivity.
  - assert (E : N.testbit x i = false).
    { destruct (N.eq_dec x 0) as [->|Hx]; [apply N.bits_0|].
      apply N.bits_above_log2. apply N.log2_lt_pow2; [lia|].
      eapply N.lt_le_trans; [exact Hs|]. apply N.pow_le_mono_r; lia. }
    rewrite E. reflexivity.
Qed.

Lemma round_up_div x b : 0 < b -> is_round_up x b ((x + (b - 1)) / b * b).
Proof.
  intro Hb. unfold is_round_up. pose proof (N.div_mod (x + (b - 1)) b ltac:(lia)) as E.
  pose proof (N.mod_upper_bound (x + (b - 1)) b ltac:(lia)) as U.
  split; [now exists ((x + (b - 1)) / b)|].
  generalize dependent ((x + (b - 1)) / b). generalize dependent ((x + (b - 1)) mod b).
  intros m Um q E. rewrite (N.mul_comm q b). generalize dependent (b * q). intros; lia.
Qed.

Lemma powTwoAlign_round s k : k < 64 -> s + (2 ^ k - 1) < U64 -> is_round_up s (2 ^ k) (powTwoAlign s (2 ^ k)).
Proof. intros. rewrite powTwoAlign_eq by auto. apply round_up_div. apply N.neq_0_lt_0, N.pow_nonzero. discriminate. Qed.

Lemma isPowTwo_log v : isPowTwo v = true -> v = 2 ^ N.log2 v.
Proof.
  unfold isPowTwo. intro H. apply andb_prop in H. destruct H as [H0 H1].
  apply N.eqb_eq in H1. destruct (N.eqb_spec v 0) as [|Hv]; [discriminate|]. clear H0.
  destruct (N.log2_spec v ltac:(lia)) as [L U].
  destruct (N.eq_dec v (2 ^ N.log2 v)) as [|D]; [auto|exfalso].
  assert (B1 : N.testbit v (N.log2 v) = true) by (apply N.bit_log2; lia).
  assert (E : N.log2 (v - 1) = N.log2 v).
  { apply N.log2_unique; [lia|]. rewrite N.pow_succ_r' in *. lia. }
  assert (B2 : N.testbit (v - 1) (N.log2 v) = true).
  { rewrite <- E. apply N.bit_log2. lia. }
  assert (B : N.testbit (N.land v (v - 1)) (N.log2 v) = true) by (rewrite N.land_spec, B1, B2; auto).
  rewrite H1, N.bits_0 in B. discriminate.
Qed.

Lemma nextPowTwo_ge v : v <= nextPowTwo v.
Proof.
  unfold nextPowTwo. destruct (N.eqb_spec v 0); [lia|].
  pose proof (N.size_gt (v - 1)). lia.
Qed.
Lemma pow2_nextPowTwo v : exists k, nextPowTwo v = 2 ^ k.
Proof. unfold nextPowTwo. destruct (v =? 0); [exists 0|eexists]; reflexivity. Qed.

Lemma align_pow2 d : d < 2 ^ 63 -> exists k, calcAllocAlignSize d = 2 ^ k /\ 9 <= k <= 31.
Proof.
  intro Hd. unfold calcAllocAlignSize.
  assert (A : (d / U32) < 2 ^ 31).
  { apply N.div_lt_upper_bound; [discriminate|]. eapply N.lt_le_trans; [exact Hd|]. now vm_compute. }
  rewrite N.mod_small by (eapply N.lt_trans; [exact A|now vm_compute]).
  set (a := d / U32) in *. clearbody a.
  destruct (N.eqb_spec a 0) as [->|Hz]; cbn [orb].
  - exists 9. split; [reflexivity|lia].
  - destruct (N.leb_spec a kMinAllocAlignSize) as [|L]; [exists 9; split; [reflexivity|lia]|].
    unfold kMinAllocAlignSize in L.
    destruct (isPowTwo a) eqn:P.
    + exists (N.log2 a). split; [now apply isPowTwo_log|]. split.
      * change 9 with (N.log2 512). apply N.log2_le_mono. lia.
      * apply isPowTwo_log in P. assert (2 ^ N.log2 a < 2 ^ 31) by lia. apply N.pow_lt_mono_r_iff in H; lia.
    + destruct (pow2_nextPowTwo a) as [k E]. exists k. split; auto.
      pose proof (nextPowTwo_ge a) as G. rewrite E in G.
      assert (Hk : k <= 31).
      { unfold nextPowTwo in E. destruct (N.eqb_spec a 0); [lia|].
        apply N.pow_inj_r in E; [|lia]. subst k.
        destruct (N.eq_dec (a - 1) 0) as [->|Q]; [cbn; lia|]. rewrite N.size_log2 by auto.
        assert (N.log2 (a - 1) < 31) by (apply N.log2_lt_pow2; lia). lia. }
      split; [|auto]. destruct (N.le_gt_cases 9 k) as [|Q]; auto. exfalso.
      assert (2 ^ k <= 2 ^ 8) by (apply N.pow_le_mono_r; lia). change (2 ^ 8) with 256 in *. lia.
Qed.

Section Addr.
Variables a R n : N.
Hypothesis Ha : 0 < a.
Hypothesis HR : 0 < R.
Hypothesis HaR : (a | R).
Hypothesis HR32 : R < U32.
Hypothesis Ha32 : a < U32.

Lemma pos_div r : slot_end a R n r -> (a | position R r).
Proof. intros (_ & _ & _ & D). unfold position. apply N.divide_add_r; auto. apply N.divide_mul_r. auto. Qed.

Lemma u64_split : a * U32 < U64.
Proof. unfold U64. replace (2 ^ 64) with (U32 * U32) by reflexivity. apply N.mul_lt_mono_pos_r; [unfold U32; lia|auto]. Qed.

Lemma roundtrip r : slot_end a R n r -> position R r < a * U32 ->
  decodeRelAddress a R (encodeRelAddress a R r) = r /\ encodeRelAddress a R r <> 0.
Proof.
  intros S P. pose proof (pos_div r S) as [q Q]. pose proof u64_split as HU.
  destruct S as (S1 & S2 & S3 & _). destruct r as [i o]. unfold position in *. cbn [fst snd] in *.
  assert (E : encodeRelAddress a R (i, o) = q).
  { unfold encodeRelAddress, toAbsolute. cbn [fst snd]. rewrite (N.mod_small (o + i * R)) by lia.
    rewrite N.add_comm, Q, N.div_mul by lia. apply N.mod_small.
    apply (N.mul_lt_mono_pos_r a); [auto|]. lia. }
  rewrite E. split.
  - unfold decodeRelAddress, decodeAbsAddress. rewrite <- Q, (N.mod_small (i * R + o)) by lia.
    replace (i * R + o + (U64 - 1)) with ((o - 1 + i * R) + 1 * U64) by lia.
    rewrite N.mod_add by discriminate. rewrite (N.mod_small (o - 1 + i * R)) by lia.
    unfold toRelative. rewrite N.div_add, N.div_small, N.add_0_l by lia.
    rewrite N.mod_add, (N.mod_small (o - 1) R), (N.mod_small (o - 1)) by lia.
    assert (Hi : i < U32).
    { destruct (N.lt_ge_cases i U32) as [|G]; auto. exfalso.
      destruct HaR as [b B]. assert (0 < b) by nia. nia. }
    rewrite (N.mod_small i) by auto. rewrite N.mod_small by lia. f_equal. lia.
  - intros ->. nia.
Qed.

Lemma inject r1 r2 : slot_end a R n r1 -> slot_end a R n r2 ->
  position R r1 < a * U32 -> position R r2 < a * U32 ->
  encodeRelAddress a R r1 = encodeRelAddress a R r2 -> r1 = r2.
Proof.
  intros S1 S2 P1 P2 E. destruct (roundtrip r1 S1 P1) as [<- _]. destruct (roundtrip r2 S2 P2) as [<- _].
  now rewrite E.
Qed.
End Addr.

Lemma valid_inv d c R : valid_config d c R = true ->
  let a := calcAllocAlignSize d in
  0 < a /\ 0 < R /\ (a | R) /\ R <= 2 ^ 30 /\ (exists n, c = n * R) /\ c <= a * U32.
Proof.
  intros V a. unfold valid_config in V. fold a in V.
  repeat (apply andb_prop in V; destruct V as [V ?]).
  apply N.leb_le in V, H. apply N.eqb_eq in H0, H2.
  destruct (N.eqb_spec R 0); [discriminate|].
  assert (A : 0 < a). { destruct (N.eq_dec a 0) as [E|]; [|lia]. rewrite E in H1. discriminate. }
  repeat split; auto; try lia.
  - apply N.mod_divide in H0; [auto|lia].
  - apply N.mod_divide in H2; auto.
Qed.

(** ** Sizes *)
Lemma serialized_round k ks vs : k <= 31 -> entryDescSize + ks + vs + 2 ^ k <= U32 ->
  is_round_up (entryDescSize + ks + vs) (2 ^ k) (serializedSize (2 ^ k) ks vs).
Proof.
  intros Hk Hs. unfold serializedSize.
  assert (P : 0 < 2 ^ k) by (apply N.neq_0_lt_0, N.pow_nonzero; discriminate).
  rewrite (N.mod_small (entryDescSize + ks + vs)) by lia.
  assert (W : U32 < U64) by now vm_compute.
  pose proof (powTwoAlign_round (entryDescSize + ks + vs) k ltac:(lia) ltac:(lia)) as Hr.
  pose proof Hr as (D & L & U). rewrite N.mod_small; auto. lia.
Qed.

Lemma hint_round s : s <= kMaxItemSize ->
  is_round_up s kMinAllocAlignSize (decodeSizeHint (encodeSizeHint s)).
Proof.
  intro Hs. unfold decodeSizeHint, encodeSizeHint.
  change kMaxItemSize with 33553920 in Hs.
  assert (E : powTwoAlign s kMinAllocAlignSize = (s + 511) / 512 * 512).
  { change kMinAllocAlignSize with (2 ^ 9). rewrite powTwoAlign_eq; [reflexivity|lia|].
    eapply N.le_lt_trans with (33553920 + 511); [|now vm_compute]. change (2 ^ 9 - 1) with 511. lia. }
  rewrite E. change kMinAllocAlignSize with 512. rewrite N.div_mul by lia.
  pose proof (round_up_div s 512 ltac:(lia)) as Hr. change (512 - 1) with 511 in Hr.
  assert (B : (s + 511) / 512 < U16).
  { apply N.div_lt_upper_bound; [lia|]. change U16 with 65536. lia. }
  rewrite (N.mod_small _ U16) by auto. rewrite N.mod_small; auto.
  change U32 with 4294967296. change U16 with 65536 in B. lia.
Qed.

(** ** Packed exponent *)
Lemma exp_loop_spec fuel i h e :
  exp_loop fuel (powExp i) (N.of_nat i) h = Some e ->
  exists j, e = N.of_nat j /\ (i <= j)%nat /\ lt_int (powExp j) h = false /\
            forall k, (i <= k < j)%nat -> lt_int (powExp k) h = true.
Proof.
  revert i. induction fuel as [|f IH]; intros i H; cbn [exp_loop] in H; [discriminate|].
  destruct (lt_int (powExp i) h) eqn:E.
  - change (fmul (powExp i) base) with (powExp (S i)) in H.
    replace (N.of_nat i + 1) with (N.of_nat (S i)) in H by lia.
    destruct (IH _ H) as (j & -> & L & F & A). exists j. repeat split; auto; [lia|].
    intros k Hk. destruct (Nat.eq_dec k i) as [->|]; auto. apply A. lia.
  - inversion H; subst. exists i. repeat split; auto. intros; lia.
Qed.

Lemma lt_int_trunc x h :
  match x with S754_finite false _ _ => True | _ => False end ->
  lt_int x h = false <-> h <= trunc x.
Proof.
  destruct x as [| | |[] m e]; try contradiction. intros _. cbn [lt_int trunc].
  destruct (Z.leb_spec 0 e).
  - rewrite Z.ltb_ge. lia.
  - rewrite Z.ltb_ge. assert (0 < 2 ^ (- e))%Z by (apply Z.pow_pos_nonneg; lia).
    split; intro L.
    + assert (Z.of_N h <= Z.pos m / 2 ^ (- e))%Z by (apply Z.div_le_lower_bound; lia). lia.
    + assert (L' : (Z.of_N h <= Z.pos m / 2 ^ (- e))%Z) by (pose proof (Z.div_pos (Z.pos m) (2 ^ (- e)) ltac:(lia) ltac:(lia)); lia).
      pose proof (Z.mul_div_le (Z.pos m) (2 ^ (- e)) ltac:(lia)). nia.
Qed.

Definition posfin (x : spec_float) : bool := match x with S754_finite false _ _ => true | _ => false end.

(** Facts about the 63 powers, by computation. *)
Lemma powers_ok : forallb (fun i => posfin (powExp i)) (seq 0 63) = true.
Proof. vm_compute. reflexivity. Qed.
Lemma powers_small : forallb (fun i => trunc (powExp i) <? U16) (seq 0 62) = true.
Proof. vm_compute. reflexivity. Qed.
Lemma powers_ratio : forallb (fun i => 1000 * trunc (powExp (S i)) <=? 1196 * (trunc (powExp i) + 1)) (seq 0 62) = true.
Proof. vm_compute. reflexivity. Qed.
Lemma pow61 : trunc (powExp 61) = 55157. Proof. vm_compute. reflexivity. Qed.
Lemma pow62 : trunc (powExp 62) = 65967. Proof. vm_compute. reflexivity. Qed.

Lemma posfin_lt i h : (i < 63)%nat -> lt_int (powExp i) h = false <-> h <= trunc (powExp i).
Proof.
  intro Hi. apply lt_int_trunc. pose proof powers_ok as P. rewrite forallb_forall in P.
  specialize (P i). rewrite in_seq in P. specialize (P ltac:(lia)).
  destruct (powExp i) as [| | |[] m e]; try discriminate. exact I.
Qed.

Lemma exp_loop_total fuel i m h : (m < fuel)%nat -> lt_int (powExp (i + m)) h = false ->
  exists e, exp_loop fuel (powExp i) (N.of_nat i) h = Some e.
Proof.
  revert i m. induction fuel as [|f IH]; intros i m Hm H; [lia|]. cbn [exp_loop].
  destruct (lt_int (powExp i) h) eqn:E; [|eauto].
  change (fmul (powExp i) base) with (powExp (S i)).
  replace (N.of_nat i + 1) with (N.of_nat (S i)) by lia.
  destruct m as [|m]; [rewrite Nat.add_0_r in H; congruence|].
  apply (IH (S i) m); [lia|]. now replace (S i + m)%nat with (i + S m)%nat by lia.
Qed.

Lemma loop_exists h : h <= 65967 -> exists j, exp_loop 64 one 0 h = Some (N.of_nat j) /\ (j <= 62)%nat /\
  h <= trunc (powExp j) /\ forall k, (k < j)%nat -> trunc (powExp k) < h.
Proof.
  intro H. assert (F : lt_int (powExp 62) h = false) by (apply posfin_lt; [lia|]; rewrite pow62; lia).
  destruct (exp_loop_total 64 0 62 h ltac:(lia) F) as [e E].
  pose proof (exp_loop_spec _ _ _ _ E) as (j & -> & _ & L & A).
  assert (J : (j <= 62)%nat).
  { destruct (Nat.le_gt_cases j 62) as [|G]; auto. rewrite (A 62%nat) in F by lia. discriminate. }
  exists j. split; [exact E|]. split; auto. split.
  - apply posfin_lt; auto. lia.
  - intros k Hk. destruct (N.lt_ge_cases (trunc (powExp k)) h) as [|G]; auto.
    apply (posfin_lt k h ltac:(lia)) in G. rewrite A in G by lia. discriminate.
Qed.

Lemma packed_ok h : 1 <= h -> h <= 55157 ->
  exists h', packedSizeHint h = Some h' /\ h <= h' /\ 1000 * h' <= 1196 * h.
Proof.
  intros H1 H2. destruct (loop_exists h ltac:(lia)) as (j & E & J & L & A).
  assert (J' : (j <= 61)%nat).
  { destruct (Nat.le_gt_cases j 61) as [|G]; auto. pose proof (A 61%nat ltac:(lia)) as Q. rewrite pow61 in Q. lia. }
  exists (trunc (powExp j)). repeat split; auto.
  - unfold packedSizeHint, sizeHintToExp. rewrite E.
    destruct (N.ltb_spec (N.of_nat j) 63); [|lia]. unfold sizeExpToHint. rewrite Nnat.Nat2N.id.
    pose proof powers_small as P. rewrite forallb_forall in P.
    rewrite (P j); [auto|]. apply in_seq. lia.
  - destruct j as [|j].
    + assert (X : trunc (powExp 0) = 1) by reflexivity. rewrite X in *. lia.
    + pose proof powers_ratio as P. rewrite forallb_forall in P. specialize (P j ltac:(apply in_seq; lia)).
      apply N.leb_le in P. specialize (A j ltac:(lia)). lia.
Qed.

Lemma packed_ub h : 55157 < h -> h < U16 -> packedSizeHint h = None.
Proof.
  intros H1 H2. change U16 with 65536 in H2. destruct (loop_exists h ltac:(lia)) as (j & E & J & L & A).
  assert (j = 62)%nat as ->.
  { destruct (Nat.eq_dec j 62) as [|N0]; auto. exfalso.
    assert (M : forall k, (k <= 61)%nat -> trunc (powExp k) <= 55157).
    { assert (P : forallb (fun i => trunc (powExp i) <=? 55157) (seq 0 62) = true) by (vm_compute; reflexivity).
      rewrite forallb_forall in P. intros k Hk. apply N.leb_le, P, in_seq. lia. }
    specialize (M j ltac:(lia)). lia. }
  unfold packedSizeHint, sizeHintToExp. rewrite E. replace (N.of_nat 62 <? 63) with true by reflexivity.
  unfold sizeExpToHint. rewrite Nnat.Nat2N.id, pow62. reflexivity.

Qed.
