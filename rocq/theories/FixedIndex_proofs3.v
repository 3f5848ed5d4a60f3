(** Proofs about the fixed-size flash index: calls. *)
From Verif Require Import Bytes SparseIndex_model SparseIndex_spec SparseIndex_proofs
  FixedIndex_model FixedIndex_spec FixedIndex_proofs FixedIndex_proofs2.
Open Scope N_scope.
Set Implicit Arguments. Unset Strict Implicit.
Ltac Zify.zify_post_hook ::= idtac.

Definition fop_ok (o : iop) : Prop :=
  match o with
  | OInsert h a z | OInsertNew h a z => 0 < a < two32 /\ 1 <= z <= 55157
  | OReplace h n o => 0 < n < two32
  | _ => True
  end.
Definition quantN (z : N) : N := match quant z with Some v => v | None => 0 end.
Definition ftok (c : fcfg) (h : N) : N := bucketId c h * 256 + partialKeyBits h.
Definition fshard (c : fcfg) (t : N) : N := t / 256 / fcShard c.

Section S.
Variable c : fcfg.
Hypothesis OK : cfg_ok c.
Local Notation T := (fTotal c).
Local Notation W := (fcShard c).
Local Notation Inv := (Inv c). Local Notation rep := (rep c). Local Notation has := (has c).

Lemma find_sub_spec : forall s org cur us, org < T ->
  (exists u, find_sub c s org cur us = Some (Some u) /\ In u us /\ u <> cur /\
     slValid (fSlot s (calcSlot c org u)) = false) \/
  (find_sub c s org cur us = Some None).
Proof.
  intros s org cur us B. induction us as [|u us IH]; simpl; [right; auto|].
  destruct (N.eqb_spec u cur) as [->|NE].
  - destruct IH as [(v & A & A2 & A3)|A]; [left; exists v; auto|right; auto].
  - rewrite acc_ok by (apply calc_lt; auto).
    destruct (slValid (fSlot s (calcSlot c org u))) eqn:V; simpl.
    + destruct IH as [(v & A & A2 & A3)|A]; [left; exists v; auto|right; auto].
    + left. exists u. auto.
Qed.

Lemma iset_get : forall m t r t', iset m t r t' = if t' =? t then r else m t'.
Proof. reflexivity. Qed.

(** moving an entry to another of its places changes nothing observable *)
Lemma move_ok : forall s m j u, Inv s -> rep s m -> j < T -> slValid (fSlot s j) = true -> u < 4 ->
  let x := fSlot s j in let org := origBid c j (slOff x) in let k := calcSlot c org u in
  slValid (fSlot s k) = false ->
  let s2 := put (put s k (mkSl (slAddr x) (slHits x) (slExp x) u (slPart x))) j (clear_rec x) in
  Inv s2 /\ rep s2 m /\ slValid (fSlot s2 j) = false /\ k / W = j / W /\ (forall i, fCnt s2 i = fCnt s i).
Proof.
  intros s m j u IV R J V U x org k KV s2.
  pose proof (i_ok IV J) as OKx. fold x in OKx.
  assert (ORG : org < T) by (apply orig_lt; auto).
  assert (KT : k < T) by (apply calc_lt; auto).
  assert (NE : k <> j) by (intros E; rewrite E in KV; congruence).
  assert (SH : k / W = j / W).
  { unfold k. destruct (calc_shard OK u ORG) as [-> _]. apply orig_shard; auto. }
  set (x' := mkSl (slAddr x) (slHits x) (slExp x) u (slPart x)) in *.
  set (v := fCnt s (j / W)).
  set (s1 := put (cnt s (j / W) (v - 1)) j (clear_rec x)).
  set (s3 := put (cnt s1 (k / W) v) k x').
  assert (CV : 1 <= v) by (apply cnt_pos; auto).
  assert (OK0 : slOk (clear_rec x)) by (destruct OKx as (A1 & A2 & A3 & A4 & A5); repeat split; simpl; auto; lia).
  assert (OK1 : slOk x') by (destruct OKx as (A1 & A2 & A3 & A4 & A5); repeat split; simpl; auto).
  assert (TK : slTok c k x' = slTok c j x).
  { unfold slTok. simpl. unfold k. rewrite orig_calc; auto. }
  assert (VX : slValid x' = true) by exact V.
  assert (I1 : Inv s1).
  { apply inv_put; auto; [discriminate|]. unfold occ. rewrite V. simpl. unfold v in *. lia. }
  assert (R1 : rep s1 (iset m (slTok c j x) None)).
  { apply rep_put with (m := m); auto; [discriminate|]. intros t. rewrite V. simpl. reflexivity. }
  assert (UQ : slValid x' = true -> forall i, i <> k -> ~ has s1 i (slTok c k x')).
  { intros _ i NI H. rewrite TK in H. apply has_put in H; auto.
    destruct H as [(_ & H & _)|(H1 & H2)]; [discriminate|]. apply H1.
    apply (i_uniq IV H2). split; auto. }
  assert (KV1 : slValid (fSlot s1 k) = false) by (unfold s1; rewrite put_other; auto).
  assert (I3 : Inv s3).
  { apply inv_put; auto. unfold occ. rewrite KV1, VX, SH.
    assert (E : fCnt s1 (j / W) = v - 1) by (simpl; rewrite N.eqb_refl; auto). rewrite E. lia. }
  assert (R3 : rep s3 m).
  { apply rep_put with (m := iset m (slTok c j x) None); auto. intros t. rewrite VX, KV1, TK. simpl.
    rewrite iset_get. destruct (N.eqb_spec t (slTok c j x)) as [->|]; auto.
    apply R. exists j. split; [split; auto|]. reflexivity. }
  assert (E : forall i, fSlot s2 i = fSlot s3 i).
  { intros i. unfold s2, s3, s1. simpl. destruct (N.eqb_spec i j) as [->|]; auto.
    destruct (N.eqb_spec j k); [congruence|]. auto. }
  assert (EC : forall i, fCnt s2 i = fCnt s3 i).
  { intros i. unfold s2, s3, s1. simpl. rewrite SH. unfold v. destruct (N.eqb_spec i (j / W)) as [->|]; auto. }
  split; [apply (Inv_ext E EC I3)|]. split; [apply (rep_ext E R3)|].
  split; [unfold s2; rewrite put_same; reflexivity|]. split; [auto|reflexivity].
Qed.

Lemma find_empty_spec : forall b os s m, Inv s -> rep s m -> b < T -> (forall o, In o os -> o < 4) ->
  (exists s' o, find_empty c s b os = Some (s', Some o) /\ o < 4 /\ Inv s' /\ rep s' m /\
     slValid (fSlot s' (calcSlot c b o)) = false) \/
  (find_empty c s b os = Some (s, None) /\ forall o, In o os -> slValid (fSlot s (calcSlot c b o)) = true).
Proof.
  intros b os s m IV R B. induction os as [|o os IH]; intros O4; cbn [find_empty In]; [right; split; auto; easy|].
  assert (O4' : forall o, In o os -> o < 4) by (intros; apply O4; right; auto).
  assert (O : o < 4) by (apply O4; left; auto).
  specialize (IH O4').
  assert (J : calcSlot c b o < T) by (apply calc_lt; auto).
  rewrite acc_ok by auto.
  destruct (slValid (fSlot s (calcSlot c b o))) eqn:V; cbn [negb].
  2:{ left. exists s, o. auto. }
  assert (GO : (exists s' o0, find_empty c s b os = Some (s', Some o0) /\ o0 < 4 /\ Inv s' /\ rep s' m /\
     slValid (fSlot s' (calcSlot c b o0)) = false) \/
    (find_empty c s b os = Some (s, None) /\ forall o0, (o = o0 \/ In o0 os) -> slValid (fSlot s (calcSlot c b o0)) = true)).
  { destruct IH as [IH|[A A2]]; [left; auto|right]. split; auto. intros o0 [<-|H]; auto. }
  rewrite (ok_comb (i_ok IV J)).
  destruct (N.eqb_spec (slOff (fSlot s (calcSlot c b o))) o) as [E|E]; [exact GO|].
  destruct (find_sub_spec s (slOff (fSlot s (calcSlot c b o))) o4 (orig_lt OK (slOff (fSlot s (calcSlot c b o))) J))
    as [(u & A & A2 & A3 & A4)|A]; unfold o4 in A; rewrite A; [|exact GO].
  apply in_o4 in A2.
  destruct (move_ok IV R J V A2 A4) as (M1 & M2 & M3 & _).
  left. eexists _, o. split; [reflexivity|]. auto.
Qed.

(** What allocation of a place for a key can do. *)
Inductive alloc (s : fidx) (m : imap) (b p : N) : fidx -> N -> Prop :=
| al_hit : forall o, o < 4 -> slOff (fSlot s (calcSlot c b o)) = o -> has s (calcSlot c b o) (tokbp b p) ->
    m (tokbp b p) = Some (slRec (fSlot s (calcSlot c b o))) -> alloc s m b p s o
| al_free : forall s' o, o < 4 -> Inv s' -> rep s' m -> m (tokbp b p) = None ->
    slValid (fSlot s' (calcSlot c b o)) = false -> alloc s m b p s' o
| al_full : m (tokbp b p) = None -> (forall o, o < 4 -> slValid (fSlot s (calcSlot c b o)) = true) ->
    alloc s m b p s 0.
Lemma decide_spec : forall s m b p, Inv s -> rep s m -> b < T -> p < 256 ->
  exists s' o, decideOff c s b p = Some (s', o) /\ alloc s m b p s' o.
Proof.
  intros s m b p IV R B P. unfold decideOff.
  destruct (check_spec OK IV R B P) as [(o & A & A1 & A2 & A3 & A4)|(A & A2 & A3)]; rewrite A.
  - exists s, o. split; auto. apply al_hit; auto.
  - destruct (@find_empty_spec b o4 s m IV R B) as [(s' & o & D & D1 & D2 & D3 & D4)|(D & D2)];
      [intros o O; apply in_o4; auto| |]; unfold o4 in D; rewrite D.
    + exists s', o. split; auto. apply al_free; auto.
    + exists s, 0. split; auto. apply al_full; auto. intros o O. apply D2. apply in_o4; auto.
Qed.
Lemma alloc_inv : forall s m b p s' o, Inv s -> rep s m -> alloc s m b p s' o -> Inv s' /\ rep s' m /\ o < 4.
Proof. intros s m b p s' o IV R A. inversion A; subst; auto. split; [|split]; auto. lia. Qed.

Lemma elb_spec : forall s m b p, Inv s -> rep s m -> b < T -> p < 256 ->
  (exists j, elb c s b p = Some (Some (j, fSlot s j)) /\ has s j (tokbp b p) /\ j / W = b / W /\
     m (tokbp b p) = Some (slRec (fSlot s j))) \/
  (elb c s b p = Some None /\ m (tokbp b p) = None).
Proof.
  intros s m b p IV R B P. unfold elb. rewrite sid_ok_true by auto.
  destruct (check_spec OK IV R B P) as [(o & A & A1 & A2 & A3 & A4)|(A & A2 & A3)]; rewrite A.
  - left. exists (calcSlot c b o). rewrite acc_ok by (apply calc_lt; auto).
    rewrite (ok_comb (i_ok IV (calc_lt OK o B))). split; auto. split; auto. split; auto.
    apply calc_shard; auto.
  - right. auto.
Qed.

Lemma rec_eq : forall x, slRec x = mkIR (slAddr x) (irHint (slRec x)) 0 (slHits x).
Proof. reflexivity. Qed.
Lemma tok_same : forall j x y, slOff x = slOff y -> slPart x = slPart y -> slTok c j x = slTok c j y.
Proof. intros j x y A B. unfold slTok. rewrite A, B. auto. Qed.

(** rewriting the record of an entry in place *)
Lemma update_ok : forall s m j t x', Inv s -> rep s m -> has s j t -> slOk x' -> slValid x' = true ->
  slTok c j x' = t -> Inv (put s j x') /\ rep (put s j x') (iset m t (Some (slRec x'))).
Proof.
  intros s m j t x' IV R H O V TK. pose proof H as (J & VJ & TJ).
  assert (UQ : slValid x' = true -> forall i, i <> j -> ~ has s i (slTok c j x')).
  { intros _ i NI HI. rewrite TK in HI. apply NI. apply (i_uniq IV HI H). }
  split; [apply inv_put0; auto; congruence|].
  apply rep_put0 with (m := m); auto. intros t'. rewrite V, VJ, TK, TJ, iset_get. simpl.
  destruct (t' =? t); auto.
Qed.
Lemma clear_ok : forall s m j t b, Inv s -> rep s m -> has s j t -> j / W = b / W ->
  let s' := put (cnt s (shardId c b) (wrap64 (fCnt s (shardId c b) + two64 - 1))) j (clear_rec (fSlot s j)) in
  Inv s' /\ rep s' (iset m t None).
Proof.
  intros s m j t b IV R H SB s'. pose proof H as (J & VJ & TJ). unfold s', shardId. rewrite <- SB.
  pose proof (cnt_pos OK IV J VJ) as CP. pose proof (cnt_bounds OK IV (sid_lt OK J)) as CB.
  assert (E : wrap64 (fCnt s (j / W) + two64 - 1) = fCnt s (j / W) - 1).
  { unfold wrap64. change two64 with 18446744073709551616. change (2 ^ 63) with 9223372036854775808 in CB.
    replace (fCnt s (j / W) + 18446744073709551616 - 1) with ((fCnt s (j / W) - 1) + 1 * 18446744073709551616) by lia.
    rewrite N.mod_add by discriminate. apply N.mod_small. lia. }
  rewrite E. destruct (i_ok IV J) as (A1 & A2 & A3 & A4 & A5). split.
  - apply inv_put; auto; [repeat split; simpl; auto; lia|discriminate|].
    unfold occ. rewrite VJ. simpl. lia.
  - apply rep_put with (m := m); auto; [discriminate|]. intros t'. rewrite VJ, TJ. simpl. reflexivity.
Qed.
(** a new entry in a free place *)
Lemma new_entry_ok : forall s m b p o x, Inv s -> rep s m -> b < T -> p < 256 -> o < 4 ->
  m (tokbp b p) = None -> slValid (fSlot s (calcSlot c b o)) = false ->
  slOk x -> slValid x = true -> slOff x = o -> slPart x = p ->
  let s' := put (cnt s (shardId c b) (fCnt s (shardId c b) + 1)) (calcSlot c b o) x in
  Inv s' /\ rep s' (iset m (tokbp b p) (Some (slRec x))).
Proof.
  intros s m b p o x IV R B P O M V OX VX XO XP s'.
  set (j := calcSlot c b o) in *.
  assert (J : j < T) by (apply calc_lt; auto).
  assert (SB : j / W = b / W) by (apply calc_shard; auto).
  assert (TK : slTok c j x = tokbp b p).
  { unfold slTok. rewrite XO, XP. unfold j. rewrite orig_calc; auto. }
  assert (UQ : slValid x = true -> forall i, i <> j -> ~ has s i (slTok c j x)).
  { intros _ i NI HI. rewrite TK in HI.
    assert (X : m (tokbp b p) = Some (slRec (fSlot s i))) by (apply R; exists i; auto). congruence. }
  unfold s', shardId. rewrite <- SB. split.
  - apply inv_put; auto. unfold occ. rewrite V, VX. lia.
  - apply rep_put with (m := m); auto. intros t. rewrite VX, V, TK, iset_get. simpl. reflexivity.
Qed.
(** a new entry over another one *)
Lemma displace_ok : forall s m b p o x, Inv s -> rep s m -> b < T -> p < 256 -> o < 4 ->
  m (tokbp b p) = None -> slValid (fSlot s (calcSlot c b o)) = true ->
  slOk x -> slValid x = true -> slOff x = o -> slPart x = p ->
  let j := calcSlot c b o in let t' := slTok c j (fSlot s j) in
  Inv (put s j x) /\ rep (put s j x) (iset (iset m t' None) (tokbp b p) (Some (slRec x))) /\
  t' <> tokbp b p /\ m t' = Some (slRec (fSlot s j)) /\ fshard c t' = b / W.
Proof.
  intros s m b p o x IV R B P O M V OX VX XO XP j t'. fold j in V.
  assert (J : j < T) by (apply calc_lt; auto).
  assert (SB : j / W = b / W) by (apply calc_shard; auto).
  assert (TK : slTok c j x = tokbp b p).
  { unfold slTok. rewrite XO, XP. unfold j. rewrite orig_calc; auto. }
  assert (MT : m t' = Some (slRec (fSlot s j))).
  { apply R. exists j. split; [split; auto|auto]. }
  assert (NT : t' <> tokbp b p) by congruence.
  assert (UQ : slValid x = true -> forall i, i <> j -> ~ has s i (slTok c j x)).
  { intros _ i NI HI. rewrite TK in HI.
    assert (X : m (tokbp b p) = Some (slRec (fSlot s i))) by (apply R; exists i; auto). congruence. }
  split; [apply inv_put0; auto; congruence|]. split.
  - apply rep_put0 with (m := m); auto. intros t. rewrite VX, V, TK, !iset_get. simpl. reflexivity.
  - split; auto. split; auto. unfold t', fshard, slTok.
    destruct (i_ok IV J) as (A1 & A2 & _). rewrite N.div_add_l by discriminate.
    rewrite (N.div_small _ _ A2), N.add_0_r. rewrite <- SB. apply orig_shard; auto.
Qed.
Lemma fshard_tok : forall b p, p < 256 -> fshard c (tokbp b p) = b / W.
Proof.
  intros b p P. unfold fshard, tokbp. rewrite N.div_add_l by discriminate.
  rewrite (N.div_small _ _ P), N.add_0_r. auto.
Qed.
Lemma crowded_ok : forall s m b p, Inv s -> rep s m -> b < T -> p < 256 ->
  (forall o, o < 4 -> slValid (fSlot s (calcSlot c b o)) = true) -> crowded (fshard c) m (tokbp b p).
Proof.
  intros s m b p IV R B P V. set (f := fun o => slTok c (calcSlot c b o) (fSlot s (calcSlot c b o))).
  exists (map f o4). split; [|split; [reflexivity|]].
  - assert (INJ : forall o o', o < 4 -> o' < 4 -> f o = f o' -> o = o').
    { intros o o' O O' E. apply (calc_inj OK B); auto.
      apply (i_uniq IV) with (t := f o); (split; [apply calc_lt; auto|split; [auto|]]); auto. }
    assert (ND : NoDup o4) by (repeat constructor; simpl; intuition lia).
    assert (L : forall o, In o o4 -> o < 4) by (intros; apply in_o4; auto).
    revert ND L. generalize o4. induction l as [|o l IH]; simpl; intros ND L; [constructor|].
    inversion ND; subst. constructor; [|apply IH; auto].
    intros H. apply in_map_iff in H. destruct H as [o' [E H]]. apply INJ in E; auto. subst. auto.
  - intros t' H. apply in_map_iff in H. destruct H as [o [<- H]]. apply in_o4 in H.
    assert (J : calcSlot c b o < T) by (apply calc_lt; auto). split.
    + assert (X : m (f o) = Some (slRec (fSlot s (calcSlot c b o)))).
      { apply R. exists (calcSlot c b o). split; [split; auto|auto]. }
      rewrite X. discriminate.
    + rewrite (fshard_tok b P). unfold f, fshard, slTok. destruct (i_ok IV J) as (A1 & A2 & _).
      rewrite N.div_add_l by discriminate. rewrite (N.div_small _ _ A2), N.add_0_r.
      destruct (orig_shard OK (slOff (fSlot s (calcSlot c b o))) J) as [-> _]. apply calc_shard; auto.
Qed.

(** * Size *)
Definition ent (s : fidx) (j : N) : list (N * irec) :=
  if slValid (fSlot s j) then [(slTok c j (fSlot s j), slRec (fSlot s j))] else [].
Fixpoint ents (n : nat) (s : fidx) : list (N * irec) :=
  match n with O => [] | S n' => ents n' s ++ ent s (N.of_nat n') end.
Lemma ents_in : forall n s t r, In (t, r) (ents n s) <->
  exists j, j < N.of_nat n /\ slValid (fSlot s j) = true /\ slTok c j (fSlot s j) = t /\ slRec (fSlot s j) = r.
Proof.
  induction n; intros s t r; [simpl; split; [easy|intros [j [J _]]; lia]|].
  cbn [ents]. rewrite in_app_iff, IHn. unfold ent. split.
  - intros [[j (A & B & C & D)]|H]; [exists j; repeat split; auto; lia|].
    destruct (slValid (fSlot s (N.of_nat n))) eqn:V; [|easy]. destruct H as [H|[]]. injection H as <- <-.
    exists (N.of_nat n). repeat split; auto; lia.
  - intros [j (A & B & C & D)]. destruct (N.eq_dec j (N.of_nat n)) as [->|NE].
    + right. rewrite B. left. congruence.
    + left. exists j. repeat split; auto. lia.
Qed.
Lemma nodup_app : forall A (l l' : list A), NoDup l -> NoDup l' -> (forall x, In x l -> ~ In x l') -> NoDup (l ++ l').
Proof.
  induction l as [|a l IH]; simpl; intros l' A1 A2 A3; auto. inversion A1; subst. constructor.
  - rewrite in_app_iff. intros [X|X]; [auto|]. apply (A3 a); auto.
  - apply IH; auto.
Qed.
Lemma ents_nodup : forall n s, Inv s -> N.of_nat n <= T -> NoDup (map fst (ents n s)).
Proof.
  induction n; intros s IV L; [constructor|]. cbn [ents]. rewrite map_app. apply nodup_app.
  - apply IHn; auto. lia.
  - unfold ent. destruct (slValid _); simpl; repeat constructor. easy.
  - intros t H1 H2. apply in_map_iff in H1. destruct H1 as [[t1 r1] [E1 H1]]. simpl in E1. subst t1.
    apply ents_in in H1. destruct H1 as (j & A & B & C & D).
    unfold ent in H2. destruct (slValid (fSlot s (N.of_nat n))) eqn:V; [|easy].
    destruct H2 as [H2|[]]. simpl in H2.
    assert (X : j = N.of_nat n); [|lia].
    apply (i_uniq IV) with (t := t); split; auto; lia.
Qed.
Lemma ents_len : forall n s, N.of_nat (length (ents n s)) = sumN n (occ s).
Proof.
  induction n; intros s; auto. cbn [ents sumN]. rewrite app_length, Nat2N.inj_add, IHn. f_equal.
  unfold ent, occ. destruct (slValid _); reflexivity.
Qed.
Lemma sumN_add : forall n k f, sumN (n + k) f = sumN n f + sumN k (fun i => f (N.of_nat n + i)).
Proof.
  induction k; intros f; [rewrite Nat.add_0_r; simpl; lia|].
  rewrite Nat.add_succ_r. cbn [sumN]. rewrite IHk.
  replace (N.of_nat (n + k)) with (N.of_nat n + N.of_nat k) by lia. lia.
Qed.
Lemma sum_shards : forall s w k, Inv s -> N.of_nat w = W -> N.of_nat k <= fShards c ->
  sumN k (fCnt s) = sumN (w * k) (occ s).
Proof.
  intros s w k IV HW. induction k; intros L; [rewrite Nat.mul_0_r; auto|].
  rewrite Nat.mul_succ_r, sumN_add, <- IHk by lia. cbn [sumN]. f_equal.
  rewrite (i_cnt IV) by lia. replace (N.to_nat W) with w by lia.
  apply sumN_ext. intros i I. f_equal. lia.
Qed.
Lemma size_ok : forall s m, Inv s -> rep s m -> exists l, entries_of m l /\ f_size c s = N.of_nat (length l).
Proof.
  intros s m IV R. destruct (total_facts OK) as (_ & _ & C & _ & n & D & P).
  exists (ents (N.to_nat T) s). split.
  - split; [apply ents_nodup; auto; lia|]. intros t r. rewrite ents_in, (R t r). unfold has. split.
    + intros (j & A & B & E & F). exists j. rewrite N2Nat.id in A. auto.
    + intros (j & (A & B & E) & F). exists j. rewrite N2Nat.id. auto.
  - rewrite ents_len. unfold f_size. rewrite (@sum_shards s (N.to_nat W) (N.to_nat (fShards c))); auto; try lia.
    f_equal. rewrite (shards_eq OK D P). rewrite D. lia.
Qed.

Lemma zero_ok : Inv f_zero /\ rep f_zero (fun _ => None).
Proof.
  split; [constructor|].
  - intros j J. repeat split; simpl; lia.
  - intros j j' t (_ & H & _). discriminate.
  - intros sid _. simpl. symmetry. generalize (N.to_nat W). induction n; simpl; auto. rewrite IHn. reflexivity.
  - intros t r. split; [discriminate|]. intros [j [(_ & H & _) _]]. discriminate.
Qed.
Lemma reset_ok : forall s, Inv s -> exists s', f_reset c s = Some (s', RUnit) /\ Inv s' /\ rep s' (fun _ => None).
Proof.
  intros s IV. destruct (total_facts OK) as (_ & _ & C & _ & n & D & P).
  unfold f_reset. rewrite (shards_eq OK D P). replace (n * W) with T by (rewrite D; lia).
  rewrite N.ltb_irrefl. eexists. split; [reflexivity|]. 
  assert (V : forall j, j < T -> (if j <? T then clear_rec (fSlot s j) else fSlot s j) = clear_rec (fSlot s j)).
  { intros j J. apply N.ltb_lt in J. rewrite J. auto. }
  split; [constructor|].
  - intros j J. simpl. rewrite V by auto. destruct (i_ok IV J) as (A1 & A2 & _). repeat split; simpl; auto; lia.
  - intros j j' t (J & H & _). simpl in H. rewrite V in H by auto. discriminate.
  - intros sid S. simpl. rewrite (shards_eq OK D P) in S. apply N.ltb_lt in S. rewrite S. apply N.ltb_lt in S.
    symmetry. 
    assert (Z : forall k, (k <= N.to_nat W)%nat -> sumN k (fun i => occ
      {| fSlot := fun j => if j <? T then clear_rec (fSlot s j) else fSlot s j;
         fCnt := fun i0 => if i0 <? n then 0 else fCnt s i0 |} (W * sid + i)) = 0).
    { induction k; intros K; auto. cbn [sumN]. rewrite IHk by lia. unfold occ. cbn [fSlot]. rewrite V; [reflexivity|].
      rewrite D. assert (W * sid + W <= W * n); [|lia].
      replace (W * sid + W) with (W * (sid + 1)) by lia. apply N.mul_le_mono_l. lia. }
    apply Z. lia.
  - intros t r. split; [discriminate|]. intros [j [(J & H & _) _]]. simpl in H. rewrite V in H by auto. discriminate.
Qed.

Lemma exp_ok : forall z, 1 <= z <= 55157 -> exists e, sizeHintToExp z = Some e /\ e <= 61 /\
  sizeExpToHint e = Some (quantN z).
Proof.
  intros z Z. destruct (exp_small Z) as (j & A & B & _). exists (N.of_nat j). split; auto. split; [lia|].
  unfold quantN, quant. rewrite B, hint_floor by auto. reflexivity.
Qed.

Ltac tk h := change (tokbp (bucketId c h) (partialKeyBits h)) with (ftok c h) in *.
Lemma step_ok : forall s m o, Inv s -> rep s m -> fop_ok o ->
  exists s' r m', f_step c s o = Some (s', r) /\ Inv s' /\
    fspec (ftok c) (fshard c) quantN m o r m' /\ rep s' m'.
Proof.
  intros s m o IV R O.
  assert (LK : forall h, bucketId c h < T) by (intros; apply bucketId_lt; auto).
  pose proof part_lt as PL.
  assert (NEW : forall a e oo p, 0 < a < two32 -> e <= 61 -> oo < 4 -> p < 256 ->
            slOk (mkSl a 0 e oo p) /\ slValid (mkSl a 0 e oo p) = true).
  { intros a e oo p A E OO P. split; [repeat split; simpl; auto; lia|]. unfold slValid; simpl.
    destruct (N.eqb_spec a 0); auto. lia. }
  assert (KEEP : forall (r : ires), fspec (ftok c) (fshard c) quantN m o r m ->
            f_step c s o = Some (s, r) ->
            exists s' r m', f_step c s o = Some (s', r) /\ Inv s' /\
              fspec (ftok c) (fshard c) quantN m o r m' /\ rep s' m').
  { intros r SP ST. exists s, r, m. auto. }
  destruct o as [h|h|h a z|h a z|h new old|h|h a| | | |]; simpl in O; cbn [f_step] in *.
  - (* lookup *)
    destruct (elb_spec IV R (LK h) (PL h)) as [(j & A & H & SB & M)|(A & M)].
    + unfold f_lookup. rewrite A. destruct H as (J & V & K). rewrite V.
      rewrite (ok_show _ (i_ok IV J)). cbn [found].
      set (x := fSlot s j) in *. destruct (i_ok IV J) as (A1 & A2 & A3 & A4 & A5). fold x in A1, A2, A3, A4, A5.
      assert (H : has s j (tokbp (bucketId c h) (partialKeyBits h))) by (split; auto).
      destruct (@update_ok s m j _ (bump x) IV R H) as [U1 U2]; auto.
      { repeat split; simpl; auto; lia. }
      eexists _, _, _. split; [reflexivity|]. split; [exact U1|]. split; [|exact U2].
      assert (E : slRec (bump x) = fread (slRec x)).
      { unfold bump, fread, slRec. cbn [slAddr slHits slExp slOff slPart irAddr irHint irX irHits].
        f_equal. apply N.min_comm. }
      replace (mkIR (slAddr x) (irHint (slRec x)) 0 (slHits (bump x))) with (fread (slRec x)).
      rewrite E. tk h; apply F_look_hit. exact M.
    + apply (KEEP (RLook None)); [tk h; apply F_look_miss; exact M|]. unfold f_lookup. rewrite A. auto.
  - (* peek *)
    destruct (elb_spec IV R (LK h) (PL h)) as [(j & A & H & SB & M)|(A & M)].
    + apply (KEEP (RLook (Some (slRec (fSlot s j))))).
      * rewrite <- M. tk h; apply F_peek.
      * unfold f_peek. rewrite A. destruct H as (J & V & K). rewrite V.
        rewrite (ok_show _ (i_ok IV J)). reflexivity.
    + apply (KEEP (RLook None)); [rewrite <- M; tk h; apply F_peek|]. unfold f_peek. rewrite A. auto.
  - (* insert *)
    destruct O as [OA OZ]. destruct (exp_ok OZ) as (e & E1 & E2 & E3).
    destruct (decide_spec IV R (LK h) (PL h)) as (s1 & oo & D & AL).
    destruct (alloc_inv IV R AL) as (IV1 & R1 & OO).
    unfold f_insert, elb_alloc. rewrite sid_ok_true, D by auto.
    assert (J : calcSlot c (bucketId c h) oo < T) by (apply calc_lt; auto).
    rewrite acc_ok by auto. rewrite (ok_comb (i_ok IV1 J)), E1.
    destruct (NEW a e oo (partialKeyBits h) OA E2 OO (PL h)) as [N1 N2].
    assert (RX : slRec (mkSl a 0 e oo (partialKeyBits h)) = mkIR a (quantN z) 0 0).
    { unfold slRec; simpl. rewrite E3. auto. }
    inversion AL as [o1 H1 H2 H3 H4|s2 o1 H1 H2 H3 H4 H5|H1 H2]; subst.
    + destruct H3 as (J3 & V3 & K3). rewrite V3. rewrite (ok_show _ (i_ok IV J3)). cbn [found].
      destruct (@update_ok s1 m (calcSlot c (bucketId c h) oo) (tokbp (bucketId c h) (partialKeyBits h))
        (mkSl a 0 e oo (partialKeyBits h)) IV R) as [U1 U2]; auto.
      { split; auto. }
      { unfold slTok. simpl. rewrite orig_calc; auto. }
      eexists _, _, _. split; [reflexivity|]. split; [exact U1|]. split; [|exact U2].
      rewrite RX. rewrite <- rec_eq, <- H4. tk h; apply F_insert.
    + rewrite H5. destruct (@new_entry_ok s1 m (bucketId c h) (partialKeyBits h) oo _ IV1 R1 (LK h) (PL h) OO H4 H5 N1 N2)
        as [U1 U2]; auto.
      eexists _, _, _. split; [reflexivity|]. split; [exact U1|]. split; [|exact U2].
      rewrite RX, <- H4. tk h; apply F_insert.
    + rewrite (H2 0) by lia. rewrite (ok_show _ (i_ok IV J)). cbn [found].
      destruct (@displace_ok s1 m (bucketId c h) (partialKeyBits h) 0 _ IV R (LK h) (PL h) OO H1 (H2 0 OO) N1 N2)
        as (U1 & U2 & U3 & U4 & U5); auto.
      eexists _, _, _. split; [reflexivity|]. split; [exact U1|]. split; [|exact U2].
      rewrite RX, <- rec_eq. tk h; eapply F_insert_displace; eauto.
      * apply (crowded_ok IV R (LK h) (PL h) H2).
      * rewrite U5. symmetry. apply fshard_tok. auto.
  - (* insertIfNotExists *)
    destruct O as [OA OZ]. destruct (exp_ok OZ) as (e & E1 & E2 & E3).
    destruct (decide_spec IV R (LK h) (PL h)) as (s1 & oo & D & AL).
    destruct (alloc_inv IV R AL) as (IV1 & R1 & OO).
    unfold f_insertNew, elb_alloc. rewrite sid_ok_true, D by auto.
    assert (J : calcSlot c (bucketId c h) oo < T) by (apply calc_lt; auto).
    rewrite acc_ok by auto. rewrite (ok_comb (i_ok IV1 J)), E1.
    destruct (NEW a e oo (partialKeyBits h) OA E2 OO (PL h)) as [N1 N2].
    assert (RX : slRec (mkSl a 0 e oo (partialKeyBits h)) = mkIR a (quantN z) 0 0).
    { unfold slRec; simpl. rewrite E3. auto. }
    inversion AL as [o1 H1 H2 H3 H4|s2 o1 H1 H2 H3 H4 H5|H1 H2]; subst.
    + destruct H3 as (J3 & V3 & K3). rewrite V3. rewrite (ok_show _ (i_ok IV J3)). cbn [found].
      eexists _, _, m. split; [reflexivity|]. split; [auto|]. split; [|auto].
      rewrite <- rec_eq. tk h; apply F_insnew_hit. exact H4.
    + rewrite H5. destruct (@new_entry_ok s1 m (bucketId c h) (partialKeyBits h) oo _ IV1 R1 (LK h) (PL h) OO H4 H5 N1 N2)
        as [U1 U2]; auto.
      eexists _, _, _. split; [reflexivity|]. split; [exact U1|]. split; [|exact U2].
      rewrite RX. tk h; apply F_insnew. exact H4.
    + rewrite (H2 0) by lia. rewrite (ok_show _ (i_ok IV J)). cbn [found].
      destruct (@displace_ok s1 m (bucketId c h) (partialKeyBits h) 0 _ IV R (LK h) (PL h) OO H1 (H2 0 OO) N1 N2)
        as (U1 & U2 & U3 & U4 & U5); auto.
      eexists _, _, m. split; [reflexivity|]. split; [auto|]. split; [|auto].
      rewrite <- rec_eq. tk h; eapply F_insnew_full; eauto.
      * apply (crowded_ok IV R (LK h) (PL h) H2).
      * rewrite U5. symmetry. apply fshard_tok. auto.
  - (* replaceIfMatch *)
    destruct (elb_spec IV R (LK h) (PL h)) as [(j & A & H & SB & M)|(A & M)].
    + destruct (N.eqb_spec (slAddr (fSlot s j)) old) as [EA|EA].
      * unfold f_replace. rewrite A. pose proof H as (J & V & K). rewrite V.
        replace (slAddr (fSlot s j) =? old) with true by (symmetry; apply N.eqb_eq; auto). cbn [andb].
        set (x := fSlot s j) in *. destruct (i_ok IV J) as (A1 & A2 & A3 & A4 & A5). fold x in A1, A2, A3, A4, A5.
        destruct (@update_ok s m j _ (mkSl new 0 (slExp x) (slOff x) (slPart x)) IV R H) as [U1 U2]; auto.
        { repeat split; simpl; auto; lia. }
        { unfold slValid; simpl. destruct (N.eqb_spec new 0); auto; lia. }
        eexists _, _, _. split; [reflexivity|]. split; [exact U1|]. split; [|exact U2].
        change (slRec (mkSl new 0 (slExp x) (slOff x) (slPart x))) with (frewrite new (slRec x)).
        tk h; eapply F_repl; [exact M|exact EA].
      * apply (KEEP (RBool false)).
        -- tk h; apply F_repl_no. intros r Hr. rewrite M in Hr. injection Hr as <-. exact EA.
        -- unfold f_replace. rewrite A. replace (slAddr (fSlot s j) =? old) with false by (symmetry; apply N.eqb_neq; auto).
           rewrite andb_false_r. auto.
    + apply (KEEP (RBool false)).
      * tk h; apply F_repl_no. intros r Hr. congruence.
      * unfold f_replace. rewrite A. auto.
  - (* remove *)
    destruct (elb_spec IV R (LK h) (PL h)) as [(j & A & H & SB & M)|(A & M)].
    + unfold f_remove. rewrite A. pose proof H as (J & V & K). rewrite V.
      rewrite (ok_show _ (i_ok IV J)). cbn [found].
      destruct (clear_ok IV R H SB) as [U1 U2].
      eexists _, _, _. split; [reflexivity|]. split; [exact U1|]. split; [|exact U2].
      rewrite <- rec_eq, <- M. tk h; apply F_remove.
    + unfold f_remove. rewrite A. eexists _, _, (iset m (ftok c h) None). split; [reflexivity|]. split; [auto|].
      tk h. split; [pose proof (F_remove (ftok c) (fshard c) quantN m h) as X; rewrite M in X; exact X|].
      intros t r. rewrite iset_get. destruct (N.eqb_spec t (ftok c h)) as [->|]; [|apply R].
      rewrite <- M. apply R.
  - (* removeIfMatch *)
    destruct (elb_spec IV R (LK h) (PL h)) as [(j & A & H & SB & M)|(A & M)].
    + destruct (N.eqb_spec (slAddr (fSlot s j)) a) as [EA|EA].
      * unfold f_removeIf. rewrite A. pose proof H as (J & V & K). rewrite V.
        replace (slAddr (fSlot s j) =? a) with true by (symmetry; apply N.eqb_eq; auto). cbn [andb].
        destruct (clear_ok IV R H SB) as [U1 U2].
        eexists _, _, _. split; [reflexivity|]. split; [exact U1|]. split; [|exact U2].
        tk h; eapply F_remif; [exact M|exact EA].
      * apply (KEEP (RBool false)).
        -- tk h; apply F_remif_no. intros r Hr. rewrite M in Hr. injection Hr as <-. exact EA.
        -- unfold f_removeIf. rewrite A. replace (slAddr (fSlot s j) =? a) with false by (symmetry; apply N.eqb_neq; auto).
           rewrite andb_false_r. auto.
    + apply (KEEP (RBool false)).
      * tk h; apply F_remif_no. intros r Hr. congruence.
      * unfold f_removeIf. rewrite A. auto.
  - destruct (reset_ok IV) as (s' & A & B & D). exists s', RUnit, (fun _ => None). split; auto. split; auto.
    split; auto. apply F_reset.
  - destruct (size_ok IV R) as (l & A & B). apply (KEEP (RSize (f_size c s))); auto. rewrite B. apply F_size; auto.
  - apply (KEEP (REnts [])); auto. apply F_iter.
  - apply (KEEP RUnit); auto. apply F_restart.
Qed.

Lemma frun_ok : forall l s m, Inv s -> rep s m -> Forall fop_ok l ->
  exists s' rs m', f_run c s l = Some (s', rs) /\ fspecs (ftok c) (fshard c) quantN m l rs m'.
Proof.
  induction l as [|o l IH]; intros s m IV R F; simpl.
  - exists s, [], m. split; auto. constructor.
  - inversion F as [|? ? O F']; subst.
    destruct (step_ok IV R O) as (s1 & r & m1 & A & IV1 & SP & R1). rewrite A.
    destruct (IH s1 m1 IV1 R1 F') as (s2 & rs & m2 & A2 & SP2). rewrite A2.
    exists s2, (r :: rs), m2. split; auto. econstructor; [exact SP| |exact SP2]. auto.
Qed.
End S.
