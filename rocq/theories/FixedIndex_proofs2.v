(** Proofs about the fixed-size flash index: the table. *)
From Verif Require Import Bytes SparseIndex_model SparseIndex_spec SparseIndex_proofs
  FixedIndex_model FixedIndex_spec FixedIndex_proofs.
Open Scope N_scope.
Set Implicit Arguments. Unset Strict Implicit.
Ltac Zify.zify_post_hook ::= idtac.

(** a usable configuration *)
Definition cfg_ok (c : fcfg) : Prop :=
  0 < fcChunks c /\ fcChunks c * 2 ^ fcPow c < 2 ^ 63 /\ 98 <= fcShard c /\
  exists n, fcChunks c * 2 ^ fcPow c = fcShard c * n.

Section T.
Variable c : fcfg.
Hypothesis OK : cfg_ok c.
Local Notation T := (fTotal c).
Local Notation W := (fcShard c).

Lemma total_eq : T = fcChunks c * 2 ^ fcPow c.
Proof.
  destruct OK as (A & B & _). unfold fTotal, wrap64. apply N.mod_small.
  eapply N.lt_trans; [exact B|]. reflexivity.
Qed.
Lemma total_facts : 0 < T /\ T < 2 ^ 63 /\ 98 <= W /\ W < 2 ^ 63 /\ exists n, T = W * n /\ 0 < n.
Proof.
  rewrite total_eq. destruct OK as (A & B & C & n & D).
  pose proof (pow_pos' (fcPow c)) as P.
  assert (X : 0 < fcChunks c * 2 ^ fcPow c) by (apply N.mul_pos_pos; auto).
  assert (n <> 0) by (intros ->; rewrite N.mul_0_r in D; lia).
  split; [auto|]. split; [auto|]. split; [auto|]. split; [|exists n; split; [auto|lia]].
  rewrite D in B. assert (W * 1 <= W * n) by (apply N.mul_le_mono_l; lia). lia.
Qed.
Lemma shards_eq : forall n, T = W * n -> 0 < n -> fShards c = n.
Proof.
  intros n E P. destruct total_facts as (_ & _ & C & _). unfold fShards. rewrite E.
  assert (H : (W * n - 1) / W = n - 1).
  { symmetry. apply (N.div_unique _ _ _ (W - 1)); [lia|].
    replace n with (n - 1 + 1) at 1 by lia. rewrite N.mul_add_distr_l. lia. }
  rewrite H. lia.
Qed.
Lemma kNext_le : forall o, kNext o <= 97.
Proof. intros o. unfold kNext. destruct o as [|p]; [lia|]. destruct p as [p|p|]; [lia| |lia]. destruct p; lia. Qed.

Lemma divmod : forall b, b = W * (b / W) + b mod W /\ b mod W < W.
Proof.
  intros b. destruct total_facts as (_ & _ & C & _). split; [apply N.div_mod; lia|apply N.mod_lt; lia].
Qed.
Lemma qr_unique : forall q r, r < W -> (W * q + r) / W = q /\ (W * q + r) mod W = r.
Proof.
  intros q r R. split; [symmetry; apply (N.div_unique _ _ q r)|symmetry; apply (N.mod_unique _ _ q r)]; auto.
Qed.
Lemma below : forall b b', b < T -> b' / W = b / W -> b' < T.
Proof.
  intros b b' B E. destruct total_facts as (_ & _ & C & _ & n & D & P).
  destruct (divmod b) as [H1 H2]. destruct (divmod b') as [H3 H4]. rewrite E in H3.
  assert (b / W < n). { apply N.div_lt_upper_bound; [lia|]. rewrite <- D. auto. }
  assert (W * (b / W) + W <= W * n).
  { replace (W * (b / W) + W) with (W * (b / W + 1)) by lia. apply N.mul_le_mono_l. lia. }
  lia.
Qed.

(** calcSlot in closed form *)
Definition rot (r f : N) : N := if r + f <? W then r + f else r + f - W.
Lemma calc_eq : forall b o, b < T -> calcSlot c b o = W * (b / W) + rot (b mod W) (kNext o).
Proof.
  intros b o B. destruct total_facts as (_ & L & C & D & _). pose proof (@kNext_le o) as K.
  destruct (divmod b) as [H1 H2]. change (2 ^ 63) with 9223372036854775808 in *.
  unfold calcSlot, wrap64. change two64 with 18446744073709551616.
  rewrite (N.mod_small (b + kNext o)) by lia.
  assert (E : (b + kNext o) mod W = rot (b mod W) (kNext o)).
  { unfold rot. destruct (N.ltb_spec (b mod W + kNext o) W).
    - symmetry. apply (N.mod_unique _ _ (b / W)); lia.
    - symmetry. apply (N.mod_unique _ _ (b / W + 1)); lia. }
  rewrite E. rewrite (N.mul_comm (b / W) W). rewrite (N.mod_small (W * (b / W))) by lia.
  assert (rot (b mod W) (kNext o) < W) by (unfold rot; destruct (N.ltb_spec (b mod W + kNext o) W); lia).
  apply N.mod_small. lia.
Qed.
Lemma rot_lt : forall r o, r < W -> rot r (kNext o) < W.
Proof.
  intros r o R. destruct total_facts as (_ & _ & C & _). pose proof (@kNext_le o). unfold rot.
  destruct (N.ltb_spec (r + kNext o) W); lia.
Qed.
Lemma calc_shard : forall b o, b < T -> calcSlot c b o / W = b / W /\ calcSlot c b o mod W = rot (b mod W) (kNext o).
Proof. intros b o B. rewrite (calc_eq o B). apply qr_unique. apply rot_lt. apply divmod. Qed.
Lemma calc_lt : forall b o, b < T -> calcSlot c b o < T.
Proof. intros b o B. apply (below B). apply calc_shard; auto. Qed.
Lemma orig_eq : forall b o, b < T -> origBid c b o =
  W * (b / W) + (if kNext o <=? b mod W then b mod W - kNext o else b mod W + W - kNext o).
Proof.
  intros b o B. destruct total_facts as (_ & L & C & D & _). pose proof (@kNext_le o) as K.
  destruct (divmod b) as [H1 H2]. change (2 ^ 63) with 9223372036854775808 in *.
  remember (W * (b / W)) as X eqn:HX; clear HX.
  unfold origBid. destruct (N.leb_spec (kNext o) (b mod W)); [lia|].
  unfold wrap64. change two64 with 18446744073709551616.
  assert (E : 18446744073709551616 + b + W - kNext o = (b + W - kNext o) + 1 * 18446744073709551616) by lia.
  rewrite E, N.mod_add by discriminate. rewrite N.mod_small; lia.
Qed.
Lemma orig_shard : forall b o, b < T -> origBid c b o / W = b / W /\
  origBid c b o mod W = (if kNext o <=? b mod W then b mod W - kNext o else b mod W + W - kNext o).
Proof.
  intros b o B. rewrite (orig_eq o B). destruct (divmod b) as [_ H2].
  destruct total_facts as (_ & _ & C & _). pose proof (@kNext_le o).
  apply qr_unique. destruct (N.leb_spec (kNext o) (b mod W)); lia.
Qed.
Lemma orig_lt : forall b o, b < T -> origBid c b o < T.
Proof. intros b o B. apply (below B). apply orig_shard; auto. Qed.
Lemma calc_orig : forall b o, b < T -> calcSlot c (origBid c b o) o = b.
Proof.
  intros b o B. rewrite (calc_eq o (orig_lt o B)). destruct (orig_shard o B) as [-> ->].
  destruct (divmod b) as [H1 H2]. destruct total_facts as (_ & _ & C & _). pose proof (@kNext_le o).
  transitivity (W * (b / W) + b mod W); [f_equal|auto]. unfold rot. destruct (N.leb_spec (kNext o) (b mod W)).
  - replace (b mod W - kNext o + kNext o) with (b mod W) by lia.
    destruct (N.ltb_spec (b mod W) W); lia.
  - destruct (N.ltb_spec (b mod W + W - kNext o + kNext o) W); lia.
Qed.
Lemma orig_calc : forall b o, b < T -> origBid c (calcSlot c b o) o = b.
Proof.
  intros b o B. rewrite (orig_eq o (calc_lt o B)). destruct (calc_shard o B) as [-> ->].
  destruct (divmod b) as [H1 H2]. destruct total_facts as (_ & _ & C & _). pose proof (@kNext_le o).
  transitivity (W * (b / W) + b mod W); [f_equal|auto]. unfold rot. destruct (N.ltb_spec (b mod W + kNext o) W);
  match goal with |- context [if ?a <=? ?b then _ else _] => destruct (N.leb_spec a b) end; lia.
Qed.
Lemma calc_inj : forall b o o', b < T -> o < 4 -> o' < 4 -> calcSlot c b o = calcSlot c b o' -> o = o'.
Proof.
  intros b o o' B O O' E. rewrite (calc_eq o B), (calc_eq o' B) in E.
  destruct total_facts as (_ & _ & C & _). destruct (divmod b) as [_ H2].
  assert (E' : rot (b mod W) (kNext o) = rot (b mod W) (kNext o')) by lia.
  unfold rot in E'. assert (X : kNext o = kNext o').
  { pose proof (@kNext_le o). pose proof (@kNext_le o').
    destruct (N.ltb_spec (b mod W + kNext o) W), (N.ltb_spec (b mod W + kNext o') W); lia. }
  assert (V : forall o, o < 4 -> o = 0 \/ o = 1 \/ o = 2 \/ o = 3) by (intros; lia).
  destruct (V o O) as [-> | [-> | [-> | ->]]], (V o' O') as [-> | [-> | [-> | ->]]]; auto; discriminate.
Qed.
Lemma bucketId_lt : forall h, bucketId c h < T.
Proof. intros. unfold bucketId. apply N.mod_lt. destruct total_facts. lia. Qed.
Lemma part_lt : forall h, partialKeyBits h < 256.
Proof.
  intros. unfold partialKeyBits. change 255 with (2 ^ 8 - 1). rewrite land_ones_pow. apply N.mod_lt. discriminate.
Qed.

(** * Representation *)
Definition slTok (j : N) (x : slot) : N := origBid c j (slOff x) * 256 + slPart x.
Definition slRec (x : slot) : irec :=
  mkIR (slAddr x) (match sizeExpToHint (slExp x) with Some z => z | None => 0 end) 0 (slHits x).
Definition has (s : fidx) (j t : N) : Prop := j < T /\ slValid (fSlot s j) = true /\ slTok j (fSlot s j) = t.
Definition rep (s : fidx) (m : imap) : Prop :=
  forall t r, m t = Some r <-> exists j, has s j t /\ slRec (fSlot s j) = r.
Definition slOk (x : slot) : Prop :=
  slOff x < 4 /\ slPart x < 256 /\ slExp x <= 61 /\ slHits x <= 3 /\ slAddr x < two32.
Definition occ (s : fidx) (j : N) : N := if slValid (fSlot s j) then 1 else 0.
Record Inv (s : fidx) : Prop := {
  i_ok : forall j, j < T -> slOk (fSlot s j);
  i_uniq : forall j j' t, has s j t -> has s j' t -> j = j';
  i_cnt : forall sid, sid < fShards c -> fCnt s sid = sumN (N.to_nat W) (fun i => occ s (W * sid + i)) }.

Lemma ok_comb : forall x, slOk x -> slComb x = false.
Proof. intros x (_ & _ & E & _). unfold slComb. apply N.eqb_neq. lia. Qed.
Lemma ok_show : forall x hits, slOk x -> show x hits = Some (mkIR (slAddr x) (irHint (slRec x)) 0 hits).
Proof.
  intros x hits (_ & _ & E & _). unfold show, slRec.
  replace (slExp x) with (N.of_nat (N.to_nat (slExp x))) by lia. rewrite hint_floor by lia. reflexivity.
Qed.

Lemma tok_inj : forall b p b' p', p < 256 -> p' < 256 -> b * 256 + p = b' * 256 + p' -> b = b' /\ p = p'.
Proof. intros. lia. Qed.

Definition tokbp (b p : N) := b * 256 + p.

Lemma has_slot : forall s j b p, Inv s -> b < T -> p < 256 -> has s j (tokbp b p) ->
  slOff (fSlot s j) < 4 /\ j = calcSlot c b (slOff (fSlot s j)) /\ slPart (fSlot s j) = p.
Proof.
  intros s j b p IV B P (J & V & K). destruct (i_ok IV J) as (O & Q & _).
  unfold slTok, tokbp in K. apply tok_inj in K; auto. destruct K as [K1 K2].
  split; auto. split; auto. rewrite <- K1. symmetry. apply calc_orig; auto.
Qed.
Lemma match_has : forall s o b p, Inv s -> b < T -> p < 256 ->
  slMatch (fSlot s (calcSlot c b o)) o p = true -> has s (calcSlot c b o) (tokbp b p).
Proof.
  intros s o b p IV B P M. unfold slMatch in M. rewrite !andb_true_iff in M.
  destruct M as [[[M1 _] M2] M3]. apply N.eqb_eq in M2. apply N.eqb_eq in M3.
  split; [apply calc_lt; auto|]. split; auto. unfold slTok. rewrite M2, orig_calc, <- M3 by auto. reflexivity.
Qed.
Lemma has_match : forall s j b p, Inv s -> b < T -> p < 256 -> has s j (tokbp b p) ->
  let o := slOff (fSlot s j) in o < 4 /\ j = calcSlot c b o /\ slMatch (fSlot s (calcSlot c b o)) o p = true.
Proof.
  intros s j b p IV B P H o. destruct (has_slot IV B P H) as (O & E & Q). split; auto. split; auto.
  unfold o. rewrite <- E. destruct H as (J & V & _). unfold slMatch. rewrite V, N.eqb_refl, Q, N.eqb_refl.
  rewrite (ok_comb (i_ok IV J)). reflexivity.
Qed.

Lemma acc_ok : forall s b, b < T -> acc c s b = Some (fSlot s b).
Proof. intros s b B. unfold acc. apply N.ltb_lt in B. rewrite B. auto. Qed.

(** find_match *)
Lemma find_match_spec : forall s b p os, b < T ->
  (exists o, find_match c s b p os = Some (Some o) /\ In o os /\ slMatch (fSlot s (calcSlot c b o)) o p = true) \/
  (find_match c s b p os = Some None /\ forall o, In o os -> slMatch (fSlot s (calcSlot c b o)) o p = false).
Proof.
  intros s b p os B. induction os as [|o os IH]; simpl; [right; split; auto; easy|].
  rewrite acc_ok by (apply calc_lt; auto).
  destruct (slMatch (fSlot s (calcSlot c b o)) o p) eqn:E; [left; exists o; auto|].
  destruct IH as [(o' & A & A2 & A3)|(A & A2)]; [left; exists o'; auto|].
  right. split; auto. intros o' [<-|H]; auto.
Qed.
Definition o4 : list N := [0; 1; 2; 3].
Lemma in_o4 : forall o, o < 4 <-> In o o4.
Proof. intros o. unfold o4. simpl. lia. Qed.

Lemma check_spec : forall s b p m, Inv s -> rep s m -> b < T -> p < 256 ->
  (exists o, checkOff c s b p = Some (Some o) /\ o < 4 /\ slOff (fSlot s (calcSlot c b o)) = o /\
     has s (calcSlot c b o) (tokbp b p) /\ m (tokbp b p) = Some (slRec (fSlot s (calcSlot c b o)))) \/
  (checkOff c s b p = Some None /\ m (tokbp b p) = None /\ forall j, ~ has s j (tokbp b p)).
Proof.
  intros s b p m IV R B P. unfold checkOff. destruct (find_match_spec s p o4 B) as [(o & A & A2 & A3)|(A & A2)].
  - left. exists o. split; auto. apply in_o4 in A2. split; auto. pose proof (match_has IV B P A3) as H.
    split; [|split; auto].
    + unfold slMatch in A3. rewrite !andb_true_iff in A3. destruct A3 as [[_ X] _]. apply N.eqb_eq in X. auto.
    + apply R. exists (calcSlot c b o). auto.
  - right. split; auto. assert (X : forall j, ~ has s j (tokbp b p)).
    { intros j H. destruct (has_match IV B P H) as (O & _ & M). apply in_o4 in O. rewrite (A2 _ O) in M. discriminate. }
    split; auto. destruct (m (tokbp b p)) eqn:E; auto. apply R in E. destruct E as [j [H _]]. destruct (X j H).
Qed.

(** * Updates *)
Lemma put_same : forall s j x, fSlot (put s j x) j = x.
Proof. intros. simpl. rewrite N.eqb_refl. auto. Qed.
Lemma put_other : forall s j x i, i <> j -> fSlot (put s j x) i = fSlot s i.
Proof. intros. simpl. apply N.eqb_neq in H. rewrite H. auto. Qed.
Lemma has_put : forall s j x i t, j < T ->
  (has (put s j x) i t <-> (i = j /\ slValid x = true /\ slTok j x = t) \/ (i <> j /\ has s i t)).
Proof.
  intros s j x i t J. unfold has. destruct (N.eq_dec i j) as [->|NE].
  - rewrite put_same. tauto.
  - rewrite (put_other _ _ NE). tauto.
Qed.

Lemma sumN_ext : forall n f g, (forall i, i < N.of_nat n -> f i = g i) -> sumN n f = sumN n g.
Proof. induction n; intros f g H; simpl; auto. rewrite (IHn f g), H; auto; intros; try apply H; lia. Qed.
Lemma sumN_upd : forall n f g k, k < N.of_nat n -> (forall i, i <> k -> g i = f i) ->
  sumN n g + f k = sumN n f + g k.
Proof.
  induction n; intros f g k K H; [simpl in K; lia|]. simpl.
  destruct (N.eq_dec k (N.of_nat n)) as [->|NE].
  - rewrite (@sumN_ext n g f); [lia|]. intros i I. apply H. lia.
  - pose proof (IHn f g k ltac:(lia) H). rewrite (H (N.of_nat n)); lia.
Qed.

Lemma sid_lt : forall b, b < T -> b / W < fShards c.
Proof.
  intros b B. destruct total_facts as (_ & _ & C & _ & n & D & P). rewrite (shards_eq D P).
  apply N.div_lt_upper_bound; [lia|]. rewrite <- D. auto.
Qed.
Lemma sid_ok_true : forall b, b < T -> sid_ok c b = true.
Proof. intros. apply N.ltb_lt. apply sid_lt; auto. Qed.

(** the counter of the shard after one bucket changed *)
Lemma occ_sum : forall s j x sid, j < T ->
  sumN (N.to_nat W) (fun i => occ (put s j x) (W * sid + i)) + (if sid =? j / W then occ s j else 0)
  = sumN (N.to_nat W) (fun i => occ s (W * sid + i)) + (if sid =? j / W then (if slValid x then 1 else 0) else 0).
Proof.
  intros s j x sid J. destruct (divmod j) as [H1 H2].
  destruct (N.eqb_spec sid (j / W)) as [->|NE].
  - assert (X : W * (j / W) + j mod W = j) by lia.
    pose proof (@sumN_upd (N.to_nat W) (fun i => occ s (W * (j / W) + i))
      (fun i => occ (put s j x) (W * (j / W) + i)) (j mod W)) as U.
    cbv beta in U. rewrite X in U. assert (Y : occ (put s j x) j = if slValid x then 1 else 0) by (unfold occ; rewrite put_same; auto).
    rewrite Y in U. apply U.
    + rewrite N2Nat.id. auto.
    + intros i I. unfold occ. rewrite put_other; auto. lia.
  - rewrite !N.add_0_r. apply sumN_ext. intros i I. unfold occ. rewrite put_other; auto.
    intros E. apply NE. rewrite N2Nat.id in I. rewrite <- E. symmetry. apply qr_unique. auto.
Qed.

Lemma cnt_slot : forall s sid v, fSlot (cnt s sid v) = fSlot s. Proof. reflexivity. Qed.

Lemma occ_le : forall n s sid, sumN n (fun i => occ s (W * sid + i)) <= N.of_nat n.
Proof.
  induction n; intros s sid; cbn [sumN]; [lia|]. specialize (IHn s sid). unfold occ at 2.
  destruct (slValid _); lia.
Qed.
(** general update: bucket [j] gets content [x]; the counter of its shard is adjusted. *)
Lemma inv_put : forall s j x v, Inv s -> j < T -> slOk x ->
  (slValid x = true -> forall i, i <> j -> ~ has s i (slTok j x)) ->
  v + occ s j = fCnt s (j / W) + (if slValid x then 1 else 0) ->
  Inv (put (cnt s (j / W) v) j x).
Proof.
  intros s j x v IV J OKx U V. constructor.
  - intros i I. destruct (N.eq_dec i j) as [->|NE]; [rewrite put_same; auto|].
    rewrite put_other by auto. rewrite cnt_slot. apply (i_ok IV); auto.
  - intros i i' t H H'. apply has_put in H; auto. apply has_put in H'; auto.
    destruct H as [(-> & A1 & A2)|(A1 & A2)], H' as [(-> & B1 & B2)|(B1 & B2)]; auto.
    + exfalso. subst t. apply (U A1 i' B1). exact B2.
    + exfalso. subst t. apply (U B1 i A1). exact A2.
    + apply (i_uniq IV A2 B2).
  - intros sid S. pose proof (@occ_sum s j x sid J) as O. pose proof (i_cnt IV S) as C.
    simpl fCnt. change (occ (put (cnt s (j / W) v) j x)) with (occ (put s j x)).
    destruct (N.eqb_spec sid (j / W)) as [->|NE]; lia.
Qed.
Lemma rep_put : forall s m m' j x v, Inv s -> rep s m -> j < T ->
  (slValid x = true -> forall i, i <> j -> ~ has s i (slTok j x)) ->
  (forall t, m' t = if slValid x && (t =? slTok j x) then Some (slRec x)
                    else if slValid (fSlot s j) && (t =? slTok j (fSlot s j)) then None else m t) ->
  rep (put (cnt s (j / W) v) j x) m'.
Proof.
  intros s m m' j x v IV R J U M t r. rewrite M. split.
  - intros E. destruct (slValid x && (t =? slTok j x)) eqn:D.
    + apply andb_true_iff in D. destruct D as [D1 D2]. apply N.eqb_eq in D2. injection E as <-.
      exists j. split; [apply has_put; auto|]. rewrite put_same; auto.
    + destruct (slValid (fSlot s j) && (t =? slTok j (fSlot s j))) eqn:D'; [discriminate|].
      apply R in E. destruct E as [i [H1 H2]]. exists i.
      assert (NE : i <> j).
      { intros ->. destruct H1 as (_ & V & K). rewrite V in D'. simpl in D'. apply N.eqb_neq in D'. auto. }
      split; [apply has_put; auto|]. rewrite put_other; auto.
  - intros [i [H E]]. apply has_put in H; auto. destruct H as [(-> & A1 & A2)|(A1 & A2)].
    + rewrite A1, A2, N.eqb_refl. simpl. rewrite put_same in E. rewrite E. auto.
    + rewrite put_other in E by auto.
      destruct (slValid x && (t =? slTok j x)) eqn:D.
      { exfalso. apply andb_true_iff in D. destruct D as [D1 D2]. apply N.eqb_eq in D2.
        apply (U D1 i A1). rewrite <- D2. exact A2. }
      destruct (slValid (fSlot s j) && (t =? slTok j (fSlot s j))) eqn:D'.
      { exfalso. apply andb_true_iff in D'. destruct D' as [D1 D2]. apply N.eqb_eq in D2. apply A1.
        apply (i_uniq IV A2). split; auto. }
      apply R. exists i. auto.
Qed.
(** the same when the counter is left alone *)
Lemma cnt_same : forall s sid, forall i, fCnt (cnt s sid (fCnt s sid)) i = fCnt s i.
Proof. intros. simpl. destruct (N.eqb_spec i sid); subst; auto. Qed.
Lemma Inv_ext : forall s s', (forall i, fSlot s' i = fSlot s i) -> (forall i, fCnt s' i = fCnt s i) -> Inv s -> Inv s'.
Proof.
  intros s s' A B IV. assert (H : forall j t, has s' j t <-> has s j t) by (intros; unfold has; rewrite A; tauto).
  constructor.
  - intros j J. rewrite A. apply (i_ok IV); auto.
  - intros j j' t X Y. apply H in X. apply H in Y. apply (i_uniq IV X Y).
  - intros sid S. rewrite B, (i_cnt IV S). apply sumN_ext. intros. unfold occ. rewrite A. auto.
Qed.
Lemma rep_ext : forall s s' m, (forall i, fSlot s' i = fSlot s i) -> rep s m -> rep s' m.
Proof.
  intros s s' m A R t r. rewrite (R t r). split; intros [j [H E]]; exists j; unfold has in *; rewrite A in *; auto.
Qed.
Lemma inv_put0 : forall s j x, Inv s -> j < T -> slOk x ->
  (slValid x = true -> forall i, i <> j -> ~ has s i (slTok j x)) ->
  slValid (fSlot s j) = slValid x -> Inv (put s j x).
Proof.
  intros s j x IV J O U V.
  apply (@Inv_ext (put (cnt s (j / W) (fCnt s (j / W))) j x)); [reflexivity| |].
  - intros i. simpl. destruct (N.eqb_spec i (j / W)); subst; auto.
  - apply inv_put; auto. unfold occ. rewrite V. lia.
Qed.
Lemma rep_put0 : forall s m m' j x, Inv s -> rep s m -> j < T ->
  (slValid x = true -> forall i, i <> j -> ~ has s i (slTok j x)) ->
  (forall t, m' t = if slValid x && (t =? slTok j x) then Some (slRec x)
                    else if slValid (fSlot s j) && (t =? slTok j (fSlot s j)) then None else m t) ->
  rep (put s j x) m'.
Proof.
  intros s m m' j x IV R J U M.
  apply (@rep_ext (put (cnt s (j / W) (fCnt s (j / W))) j x)); [reflexivity|]. eapply rep_put; eauto.
Qed.

(** the counter of a shard with an occupied bucket is positive *)
Lemma sumN_ge : forall n f k, k < N.of_nat n -> f k <= sumN n f.
Proof.
  induction n; intros f k K; [simpl in K; lia|]. simpl. destruct (N.eq_dec k (N.of_nat n)) as [->|NE]; [lia|].
  specialize (IHn f k ltac:(lia)). lia.
Qed.
Lemma cnt_bounds : forall s sid, Inv s -> sid < fShards c -> fCnt s sid < 2 ^ 63.
Proof.
  intros s sid IV S. rewrite (i_cnt IV S). pose proof (@occ_le (N.to_nat W) s sid) as H.
  destruct total_facts as (_ & _ & _ & D & _). lia.
Qed.
Lemma cnt_pos : forall s j, Inv s -> j < T -> slValid (fSlot s j) = true -> 1 <= fCnt s (j / W).
Proof.
  intros s j IV J V. rewrite (i_cnt IV (sid_lt J)). destruct (divmod j) as [H1 H2].
  pose proof (@sumN_ge (N.to_nat W) (fun i => occ s (W * (j / W) + i)) (j mod W)) as H. cbv beta in H.
  rewrite <- H1 in H. unfold occ at 1 in H. rewrite V in H. apply H. lia.
Qed.
End T.
