From Verif Require Import Bytes FurcHash_model FurcHash_spec.
From Coq Require Import ZifyBool ZifyNat ZifyN.

Section Key.
Variable key : list byte.

Definition chain (c : cache) : Prop := c <> [] /\ c = map (word key) (seq 0 (length c)).

Lemma chain_init : chain [murmurHash64A key kMurmur2Seed].
Proof. split; [discriminate|reflexivity]. Qed.

Lemma chain_extend c : chain c -> chain (extend c) /\ length (extend c) = S (length c).
Proof.
  intros [NE E]. unfold extend. rewrite app_length. cbn [length].
  split; [|lia]. split; [destruct c; discriminate|].
  rewrite app_length; cbn [length]. rewrite Nat.add_1_r, seq_S, map_app, <- E. f_equal.
  cbn [map]. f_equal.
  destruct (length c) as [|n] eqn:L; [destruct c; [congruence|discriminate]|].
  rewrite Nat.add_0_l. change (word key (S n)) with (murmurRehash64A (word key n)). f_equal.
  rewrite E, seq_S, map_app. cbn [map]. rewrite last_last. reflexivity.
Qed.
Lemma chain_extendN n : forall c, chain c -> chain (extendN n c) /\ length (extendN n c) = n + length c.
Proof.
  induction n as [|n IH]; intros c C; cbn [extendN]; [split; [exact C|reflexivity]|].
  destruct (chain_extend c C) as [C1 L1]. destruct (IH _ C1) as [C2 L2]. split; [exact C2|lia].
Qed.

Lemma land63 x : N.land x 63 = (x mod 64)%N.
Proof. change 63%N with (N.ones 6). rewrite N.land_ones. reflexivity. Qed.

Lemma getbit_ok c ch : chain c -> (ch < 19200)%N ->
  exists c', getbit c ch = Some (c', bit key ch) /\ chain c'.
Proof.
  intros C B. unfold getbit. rewrite N.shiftr_div_pow2. change (2 ^ 6)%N with 64%N.
  set (i := N.to_nat (ch / 64)).
  assert (I : i < 300) by (unfold i; lia).
  unfold kHashCacheSize. rewrite (proj2 (Nat.ltb_lt _ _) I).
  destruct (chain_extendN (S i - length c) c C) as [C' L'].
  set (c' := extendN (S i - length c) c) in *.
  exists c'. split; [|exact C'].
  destruct C' as [_ E]. rewrite E. rewrite nth_error_map.
  assert (Q : nth_error (seq 0 (length c')) i = Some i).
  { rewrite nth_error_nth' with (d := 0) by (rewrite seq_length; lia). rewrite seq_nth by lia. reflexivity. }
  rewrite Q. cbn [option_map]. rewrite land63. rewrite <- E. reflexivity.
Qed.

(** cache-free versions *)
Fixpoint desc (bitNum : nat) (choice : N) : option (nat * N) :=
  if bit key choice then Some (bitNum, choice)
  else match bitNum with O => None | S O => None | S b => desc b (N.of_nat b) end.
Fixpoint rbits (k : nat) (choice result : N) : N * N :=
  match k with
  | O => (choice, result)
  | S k' => rbits k' (choice + kFurcShift) (wrap32 (N.lor (N.shiftl result 1) (if bit key choice then 1 else 0)))
  end.
Fixpoint tryP (tries : nat) (bitNum : nat) (choice nPart : N) : N :=
  match tries with
  | O => 0%N
  | S t => match desc bitNum choice with
           | None => 0%N
           | Some (b, ch) =>
               let '(ch2, r) := rbits (b - 1) (ch + kFurcShift) 1 in
               if (r <? nPart)%N then r else tryP t b ch2 nPart
           end
  end.

Lemma descend_ok b : forall c ch, chain c -> 1 <= b -> (ch < 19200)%N -> b <= 23 ->
  exists c', descend c b ch = Some (c', desc b ch) /\ chain c'.
Proof.
  induction b as [|b IH]; intros c ch C B1 CH B2; [lia|].
  destruct (getbit_ok c ch C CH) as (c' & G & C'). cbn [descend desc]. rewrite G.
  destruct (bit key ch); [exists c'; split; [reflexivity|exact C']|].
  destruct b as [|b']; [exists c'; split; [reflexivity|exact C']|].
  apply IH; [exact C'|lia|lia|lia].
Qed.
Lemma desc_spec b : forall ch b' ch', 1 <= b -> desc b ch = Some (b', ch') ->
  1 <= b' <= b /\ bit key ch' = true /\ ((b' = b /\ ch' = ch) \/ (b' < b /\ ch' = N.of_nat b')).
Proof.
  induction b as [|b IH]; intros ch b' ch' B1 D; [lia|]. cbn [desc] in D.
  destruct (bit key ch) eqn:Bt.
  - injection D as <- <-. split; [lia|]. split; [exact Bt|]. left; split; reflexivity.
  - destruct b as [|b2]; [discriminate|].
    destruct (IH _ _ _ ltac:(lia) D) as (A1 & A2 & A3). split; [lia|]. split; [exact A2|]. right.
    destruct A3 as [[-> ->]|[A3 ->]]; split; try reflexivity; lia.
Qed.
Lemma readBits_ok k : forall c ch r, chain c -> (ch + 23 * N.of_nat k < 19200)%N ->
  exists c', readBits k c ch r = Some (c', fst (rbits k ch r), snd (rbits k ch r)) /\ chain c'.
Proof.
  induction k as [|k IH]; intros c ch r C B; cbn [readBits rbits].
  - exists c. split; [reflexivity|exact C].
  - destruct (getbit_ok c ch C) as (c' & G & C'); [lia|]. rewrite G.
    apply IH; [exact C'|]. unfold kFurcShift. lia.
Qed.
Lemma rbits_choice k : forall ch r, fst (rbits k ch r) = (ch + N.of_nat k * 23)%N.
Proof.
  induction k as [|k IH]; intros; cbn [rbits]; [cbn [fst]; lia|]. rewrite IH. unfold kFurcShift. lia.
Qed.
Lemma lor1 x (b : bool) : N.lor (N.shiftl x 1) (if b then 1 else 0) = (2 * x + if b then 1 else 0)%N.
Proof.
  rewrite N.shiftl_1_l || rewrite N.shiftl_mul_pow2. change (2 ^ 1)%N with 2%N. rewrite N.mul_comm.
  destruct b; destruct x; cbn; reflexivity.
Qed.
Lemma rbits_bound k : forall ch r j, (r < 2 ^ N.of_nat j)%N -> j + k <= 32 ->
  (snd (rbits k ch r) < 2 ^ N.of_nat (j + k))%N.
Proof.
  induction k as [|k IH]; intros ch r j R J; cbn [rbits].
  - rewrite Nat.add_0_r. exact R.
  - replace (j + S k) with (S j + k) by lia. apply IH; [|lia]. rewrite lor1.
    unfold wrap32. eapply N.le_lt_trans; [apply N.mod_le; discriminate|].
    rewrite Nat2N.inj_succ, N.pow_succ_r'. destruct (bit key ch); lia.
Qed.
Lemma tryLoop_ok t : forall c b ch n, chain c -> 1 <= b <= 23 ->
  (23 <= ch /\ ch + 529 * N.of_nat t <= 19000 \/ ch <= 23 /\ 23 + 529 * N.of_nat t <= 19000)%N ->
  tryLoop t c b ch n = Some (tryP t b ch n).
Proof.
  induction t as [|t IH]; intros c b ch n C B H; cbn [tryLoop tryP]; [reflexivity|].
  destruct (descend_ok b c ch C) as (c1 & D & C1); try lia. rewrite D.
  destruct (desc b ch) as [[b' ch']|] eqn:DE; [|reflexivity].
  apply desc_spec in DE as (B' & Bt & W); [|lia].
  assert (CH' : (ch' <= 23 \/ ch' = ch)%N) by lia.
  destruct (readBits_ok (b' - 1) c1 (ch' + kFurcShift) 1 C1) as (c2 & R & C2).
  { unfold kFurcShift. lia. }
  rewrite R. destruct (rbits (b' - 1) (ch' + kFurcShift) 1) as [ch2 r] eqn:RB. cbn [fst snd].
  destruct (r <? n)%N; [reflexivity|].
  pose proof (rbits_choice (b' - 1) (ch' + kFurcShift) 1) as Q. rewrite RB in Q. cbn [fst] in Q.
  unfold kFurcShift in Q. apply IH; [exact C2|lia|lia].
Qed.

Lemma tryP_lt t : forall b ch n, (0 < n)%N -> (tryP t b ch n < n)%N.
Proof.
  induction t as [|t IH]; intros b ch n P; cbn [tryP]; [exact P|].
  destruct (desc b ch) as [[b' ch']|]; [|exact P].
  destruct (rbits _ _ _) as [ch2 r]. destruct (N.ltb_spec r n); [assumption|apply IH; exact P].
Qed.
Lemma tryP_mono t : forall b ch n, tryP t b ch (n + 1) = tryP t b ch n \/ tryP t b ch (n + 1) = n.
Proof.
  induction t as [|t IH]; intros b ch n; cbn [tryP]; [left; reflexivity|].
  destruct (desc b ch) as [[b' ch']|]; [|left; reflexivity].
  destruct (rbits _ _ _) as [ch2 r].
  destruct (N.ltb_spec r (n + 1)); destruct (N.ltb_spec r n).
  - left; reflexivity.
  - right; lia.
  - lia.
  - apply IH.
Qed.

(** bitNum *)
Lemma bitNumFrom_spec fuel : forall b n, (n <= 2 ^ N.of_nat (b + fuel))%N ->
  let r := bitNumFrom fuel b n in
  b <= r /\ (n <= 2 ^ N.of_nat r)%N /\ (b < r -> (2 ^ N.of_nat (r - 1) < n)%N).
Proof.
  induction fuel as [|f IH]; intros b n H; cbn [bitNumFrom].
  - rewrite Nat.add_0_r in H. split; [lia|]. split; [exact H|]. lia.
  - rewrite N.shiftl_1_l. destruct (N.ltb_spec (2 ^ N.of_nat b) n) as [L|L].
    + destruct (IH (S b) n) as (A1 & A2 & A3). { replace (S b + f) with (b + S f) by lia. exact H. }
      split; [lia|]. split; [exact A2|]. intros _.
      destruct (Nat.eq_dec (bitNumFrom f (S b) n) (S b)) as [E|E].
      * rewrite E. replace (S b - 1) with b by lia. exact L.
      * apply A3. lia.
    + split; [lia|]. split; [exact L|]. lia.
Qed.
Definition bn (n : N) := bitNumFrom 64 0 n.
Lemma pow_le_mono a b : a <= b -> (2 ^ N.of_nat a <= 2 ^ N.of_nat b)%N.
Proof. intros. apply N.pow_le_mono_r; lia. Qed.
Lemma bn_unique n b : 1 <= b <= 64 -> (n <= 2 ^ N.of_nat b)%N -> (2 ^ N.of_nat (b - 1) < n)%N -> bn n = b.
Proof.
  intros B U L. destruct (bitNumFrom_spec 64 0 n) as (_ & A2 & A3).
  { cbn [plus]. pose proof (pow_le_mono b 64 ltac:(lia)). lia. }
  fold (bn n) in *. destruct (Nat.lt_trichotomy (bn n) b) as [X|[X|X]]; [|exact X|].
  - pose proof (pow_le_mono (bn n) (b - 1) ltac:(lia)). lia.
  - pose proof (pow_le_mono b (bn n - 1) ltac:(lia)). specialize (A3 ltac:(lia)). lia.
Qed.
Lemma bn_spec n : (2 <= n)%N -> (n <= 2 ^ 23)%N -> 1 <= bn n <= 23 /\ (n <= 2 ^ N.of_nat (bn n))%N /\ (2 ^ N.of_nat (bn n - 1) < n)%N.
Proof.
  intros L U. destruct (bitNumFrom_spec 64 0 n) as (_ & A2 & A3).
  { cbn [plus]. change (N.of_nat 64) with 64%N. eapply N.le_trans; [exact U|]. apply N.pow_le_mono_r; lia. }
  fold (bn n) in *.
  assert (1 <= bn n). { destruct (bn n); [cbn in A2; lia|lia]. }
  specialize (A3 ltac:(lia)). split; [|split; assumption]. split; [assumption|].
  destruct (le_lt_dec (bn n) 23) as [X|X]; [exact X|].
  pose proof (pow_le_mono 23 (bn n - 1) ltac:(lia)) as Y. change (N.of_nat 23) with 23%N in Y. lia.
Qed.

Definition fP (n : N) : N := if (n <=? 1)%N then 0%N else tryP 32 (bn n) (N.of_nat (bn n)) n.
Lemma furcHash_ok n : (n <= 2 ^ 23)%N -> furcHash key n = Some (fP n).
Proof.
  intros U. unfold furcHash, fP. destruct (N.leb_spec n 1); [reflexivity|].
  fold (bn n). destruct (bn_spec n) as (B & _); [lia|exact U|].
  unfold kMaxTries. apply tryLoop_ok; [apply chain_init|exact B|]. right. lia.
Qed.
Lemma in_range n : (1 <= n)%N -> (n <= 2 ^ 23)%N -> exists r, furcHash key n = Some r /\ (r < n)%N.
Proof.
  intros L U. exists (fP n). split; [apply furcHash_ok; exact U|]. unfold fP.
  destruct (N.leb_spec n 1); [lia|]. apply tryP_lt. lia.
Qed.

(** a single try is enough for a power of two *)
Lemma desc_small b ch b' ch' : 1 <= b <= 23 -> desc b ch = Some (b', ch') ->
  (snd (rbits (b' - 1) (ch' + kFurcShift) 1) < 2 ^ N.of_nat b)%N.
Proof.
  intros B D. apply desc_spec in D as (B' & _ & _); [|lia].
  pose proof (rbits_bound (b' - 1) (ch' + kFurcShift) 1 1 ltac:(cbn; lia) ltac:(lia)) as Q.
  replace (1 + (b' - 1)) with b' in Q by lia. pose proof (pow_le_mono b' b ltac:(lia)). lia.
Qed.
Lemma tryP_pow t b ch n n' t' : 1 <= b <= 23 -> (2 ^ N.of_nat b <= n)%N -> (2 ^ N.of_nat b <= n')%N ->
  tryP (S t) b ch n = tryP (S t') b ch n'.
Proof.
  intros B L1 L2. cbn [tryP]. destruct (desc b ch) as [[b' ch']|] eqn:D; [|reflexivity].
  pose proof (desc_small _ _ _ _ B D) as Q.
  destruct (rbits _ _ _) as [ch2 r]. cbn [snd] in Q.
  destruct (N.ltb_spec r n); [|lia]. destruct (N.ltb_spec r n'); [reflexivity|lia].
Qed.
Lemma tryP_step b : 1 <= b <= 22 -> forall t ch,
  let n := (2 ^ N.of_nat b)%N in
  tryP t (S b) ch (n + 1) = n \/ tryP t (S b) ch (n + 1) = tryP 32 b (N.of_nat b) n \/
  (tryP t (S b) ch (n + 1) = 0%N /\
   forall i : nat, i < t -> bit key (ch + N.of_nat i * (23 * N.of_nat (S b)))%N = true).
Proof.
  intros B t. induction t as [|t IH]; intros ch n.
  - right; right. split; [reflexivity|]. lia.
  - destruct (bit key ch) eqn:Bt.
    + (* stays on the level *)
      assert (D : desc (S b) ch = Some (S b, ch)) by (cbn [desc]; rewrite Bt; reflexivity).
      cbn [tryP]. rewrite D.
      pose proof (rbits_choice (S b - 1) (ch + kFurcShift) 1) as Q.
      destruct (rbits (S b - 1) (ch + kFurcShift) 1) as [ch2 r] eqn:RB. cbn [fst] in Q.
      destruct (N.ltb_spec r (n + 1)) as [LT|GE].
      * left.
        (* r >= n *)
        assert (G : forall k c r j, (2 ^ N.of_nat j <= r < 2 ^ N.of_nat (S j))%N -> S j + k <= 32 ->
                     (2 ^ N.of_nat (j + k) <= snd (rbits k c r))%N).
        { clear. induction k as [|k IHk]; intros c r j R J; cbn [rbits].
          - rewrite Nat.add_0_r. cbn [snd]. lia.
          - replace (j + S k) with (S j + k) by lia. apply IHk; [|lia]. rewrite lor1.
            assert (2 * r + (if bit key c then 1 else 0) < two32)%N as W.
            { pose proof (pow_le_mono (S (S j)) 32 ltac:(lia)) as P. change (2 ^ N.of_nat 32)%N with two32 in P.
              rewrite Nat2N.inj_succ, N.pow_succ_r' in P. destruct (bit key c); lia. }
            unfold wrap32. rewrite N.mod_small by exact W.
            rewrite (Nat2N.inj_succ (S j)), N.pow_succ_r'. rewrite (Nat2N.inj_succ j), N.pow_succ_r' in *. destruct (bit key c); lia. }
        specialize (G (S b - 1) (ch + kFurcShift)%N 1%N 0). rewrite RB in G. cbn [snd] in G.
        specialize (G ltac:(cbn; lia) ltac:(lia)). replace (0 + (S b - 1)) with b in G by lia. fold n in G. lia.
      * destruct (IH ch2) as [I|[I|[I1 I2]]].
        -- left; exact I.
        -- right; left; exact I.
        -- right; right. split; [exact I1|]. intros [|i] Hi.
           ++ replace (ch + N.of_nat 0 * (23 * N.of_nat (S b)))%N with ch by lia. exact Bt.
           ++ specialize (I2 i ltac:(lia)). rewrite Q in I2. unfold kFurcShift in I2.
              rewrite <- I2. f_equal. lia.
    + (* falls to level b *)
      right; left. cbn [tryP]. cbn [desc]. rewrite Bt. destruct b as [|b']; [lia|].
      pose proof (tryP_pow t (S b') (N.of_nat (S b')) (n + 1) n 31 ltac:(lia) ltac:(unfold n; lia) ltac:(unfold n; lia)) as P.
      cbn [tryP] in P. exact P.
Qed.

Lemma grow n : (1 <= n)%N -> (n + 1 <= 2 ^ 23)%N ->
  fP (n + 1) = fP n \/ fP (n + 1) = n \/
  (exists b, n = (2 ^ N.of_nat b)%N /\ fP (n + 1) = 0%N /\ unlucky key b).
Proof.
  intros L U. destruct (N.eq_dec n 1) as [->|N1].
  { (* 1 -> 2 shards *)
    pose proof (in_range 2 ltac:(lia) ltac:(exact U)) as (r & E & R).
    rewrite furcHash_ok in E by exact U. injection E as E. change (1 + 1)%N with 2%N. rewrite E.
    change (fP 1) with 0%N. lia. }
  destruct (bn_spec n) as (B1 & B2 & B3); [lia|lia|].
  unfold fP. destruct (N.leb_spec n 1); [lia|]. destruct (N.leb_spec (n + 1) 1); [lia|].
  destruct (N.eq_dec n (2 ^ N.of_nat (bn n))) as [E|NE].
  - assert (BB : bn n <= 22).
    { destruct (le_lt_dec (bn n) 22) as [X|X]; [exact X|].
      pose proof (pow_le_mono 23 (bn n) ltac:(lia)) as Y. change (N.of_nat 23) with 23%N in Y. lia. }
    assert (E2 : bn (n + 1) = S (bn n)).
    { apply bn_unique; [lia| |].
      - rewrite Nat2N.inj_succ, N.pow_succ_r'. lia.
      - replace (S (bn n) - 1) with (bn n) by lia. lia. }
    rewrite E2. set (b := bn n) in *.
    destruct (tryP_step b ltac:(lia) 32 (N.of_nat (S b))) as [I|[I|[I1 I2]]]; rewrite <- E in *.
    + right; left; exact I.
    + left; exact I.
    + right; right. exists b. split; [exact E|]. split; [exact I1|]. exact I2.
  - assert (E2 : bn (n + 1) = bn n) by (apply bn_unique; lia). rewrite E2.
    destruct (tryP_mono 32 (bn n) (N.of_nat (bn n)) n) as [I|I]; [left|right; left]; exact I.
Qed.
Lemma grow_many m d : (1 <= m)%N -> (m + N.of_nat d <= 2 ^ 23)%N ->
  fP (m + N.of_nat d) = fP m \/ (m <= fP (m + N.of_nat d))%N \/
  (exists b, (m <= 2 ^ N.of_nat b < m + N.of_nat d)%N /\ unlucky key b).
Proof.
  intros L. induction d as [|d IH]; intros U; [left; f_equal; lia|].
  replace (m + N.of_nat (S d))%N with (m + N.of_nat d + 1)%N in * by lia.
  destruct (grow (m + N.of_nat d)) as [G|[G|(b & G1 & G2 & G3)]]; [lia|lia| | |].
  - rewrite G. destruct IH as [I|[I|(b & I1 & I2)]]; [lia|left; exact I|right; left; exact I|].
    right; right. exists b. split; [lia|exact I2].
  - right; left. rewrite G. lia.
  - right; right. exists b. split; [lia|exact G3].
Qed.
End Key.
