From Verif Require Import CCache_model CCache_spec CCacheF_proofs.
From Coq Require Import Permutation.
Ltac Zify.zify_post_hook ::= idtac.

(** ** Physical blocks of the data section *)
Notation block := (nat * list byte)%type (only parsing).
Definition encB (g : nat -> nat) (x : block) : list byte := N.of_nat (g (fst x)) :: snd x.
Definition enc (g : nat -> nat) (bs : list block) : list byte := flat_map (encB g) bs.
Definition elen (bs : list block) : nat := list_sum (map (fun x => S (length (snd x))) bs).
Definition ren (s : nat -> nat) (bs : list block) : list block := map (fun x => (s (fst x), snd x)) bs.
Notation eid := (enc (fun i => i)).

Lemma enc_cons g i v r : enc g ((i, v) :: r) = N.of_nat (g i) :: v ++ enc g r.
Proof. reflexivity. Qed.
Lemma elen_cons i v r : elen ((i, v) :: r) = S (length v) + elen r.
Proof. reflexivity. Qed.
Lemma enc_len g bs : length (enc g bs) = elen bs.
Proof.
  induction bs as [|[i v] r IH]; [reflexivity|]. rewrite enc_cons, elen_cons, <- IH. cbn.
  now rewrite app_length.
Qed.
Lemma enc_app g a b : enc g (a ++ b) = enc g a ++ enc g b.
Proof. unfold enc. apply flat_map_app. Qed.
Lemma elen_app a b : elen (a ++ b) = elen a + elen b.
Proof. unfold elen. now rewrite map_app, list_sum_app. Qed.
Lemma elen_ren s bs : elen (ren s bs) = elen bs.
Proof. unfold elen, ren. now rewrite map_map. Qed.
Lemma fst_ren s bs : map fst (ren s bs) = map s (map fst bs).
Proof. unfold ren. now rewrite !map_map. Qed.
Lemma ren_app s a b : ren s (a ++ b) = ren s a ++ ren s b.
Proof. apply map_app. Qed.
Lemma enc_ren g s bs : enc g (ren s bs) = enc (fun i => g (s i)) bs.
Proof.
  induction bs as [|[i v] r IH]; [reflexivity|].
  change (ren s ((i, v) :: r)) with ((s i, v) :: ren s r). now rewrite !enc_cons, IH.
Qed.
Lemma enc_ext g g' bs : (forall i, In i (map fst bs) -> g i = g' i) -> enc g bs = enc g' bs.
Proof.
  induction bs as [|[i v] r IH]; intros H; [reflexivity|].
  rewrite !enc_cons. cbn in H. rewrite (H i) by auto. rewrite IH; auto.
Qed.

(** Headers and values of the blocks, the first of which starts at [off]. *)
Fixpoint Lay (hs : list hdr) (l : list entry) (off : nat) (bs : list block) : Prop :=
  match bs with
  | [] => True
  | (i, v) :: r =>
      (exists k, nth_error hs i = Some {| h_key := k; h_size := length v; h_off := off |} /\
                 nth_error l i = Some (k, v)) /\
      Lay hs l (off + S (length v)) r
  end.

Lemma Lay_app hs l a : forall off b, Lay hs l off (a ++ b) <-> Lay hs l off a /\ Lay hs l (off + elen a) b.
Proof.
  induction a as [|[i v] a IH]; intros off b; cbn [app Lay].
  - cbn. rewrite Nat.add_0_r. tauto.
  - rewrite IH. replace (off + elen ((i, v) :: a)) with (off + S (length v) + elen a) by (rewrite elen_cons; lia). tauto.
Qed.
Lemma Lay_ren s hs l hs' l' bs : forall off,
  (forall i, In i (map fst bs) -> nth_error hs' (s i) = nth_error hs i /\ nth_error l' (s i) = nth_error l i) ->
  Lay hs l off bs -> Lay hs' l' off (ren s bs).
Proof.
  induction bs as [|[i v] r IH]; cbn; intros off H; [trivial|].
  intros [(k & A & B) C]. destruct (H i) as [-> ->]; auto.
  split; [eauto|]. apply IH; auto.
Qed.
Lemma ren_id bs : ren (fun i => i) bs = bs.
Proof. unfold ren. rewrite <- (map_id bs) at 2. apply map_ext. now intros []. Qed.
Lemma Lay_ext hs l hs' l' bs off :
  (forall i, In i (map fst bs) -> nth_error hs' i = nth_error hs i /\ nth_error l' i = nth_error l i) ->
  Lay hs l off bs -> Lay hs' l' off bs.
Proof. intros H HL. rewrite <- (ren_id bs). now apply (Lay_ren _ hs l). Qed.
Lemma Lay_in hs l bs : forall off i, Lay hs l off bs -> In i (map fst bs) ->
  exists a v b k, bs = a ++ (i, v) :: b /\
    nth_error hs i = Some {| h_key := k; h_size := length v; h_off := off + elen a |} /\
    nth_error l i = Some (k, v).
Proof.
  induction bs as [|[j w] r IH]; cbn; intros off i HL HI; [tauto|].
  destruct HL as [(k & A & B) C]. destruct HI as [->|HI].
  - exists [], w, r, k. cbn. rewrite Nat.add_0_r. auto.
  - destruct (IH _ _ C HI) as (a & v & b & k' & -> & H1 & H2).
    exists ((j, w) :: a), v, b, k'. split; [reflexivity|]. split; [|assumption].
    rewrite H1. do 2 f_equal. rewrite elen_cons. lia.
Qed.

(** ** Reading and writing single index bytes *)
Lemma getIndex_mid a x b off : off = length a -> (x < 256)%N -> getIndex (a ++ x :: b) off = Some (N.to_nat x).
Proof.
  intros E Hx. unfold getIndex.
  change (a ++ x :: b) with (a ++ [x] ++ b).
  assert (E1 : [x] = le_enc 1 x). { cbn. now rewrite N.mod_small. }
  rewrite E1, rd_app_mid; auto. 
Qed.
Lemma setIndex_mid a x b off i : off = length a -> i < 256 ->
  setIndex (a ++ x :: b) off i = Some (a ++ N.of_nat i :: b).
Proof.
  intros E Hi. unfold setIndex. change (a ++ x :: b) with (a ++ [x] ++ b).
  rewrite wr_app_mid with (b := [x]) by auto. cbn. rewrite N.mod_small by lia. reflexivity.
Qed.

(** ** Moving a window of blocks *)
Lemma setHdr_len hs i h : i < length hs -> length (setHdr hs i h) = length hs.
Proof. intros H. unfold setHdr. rewrite app_length. cbn. rewrite firstn_length, skipn_length. lia. Qed.
Lemma setHdr_nth hs i h j : i < length hs ->
  nth_error (setHdr hs i h) j = if Nat.eqb j i then Some h else nth_error hs j.
Proof.
  intros H. unfold setHdr. destruct (Nat.eqb_spec j i) as [->|Hne].
  - rewrite nth_error_app2; rewrite firstn_length, Nat.min_l by lia; [|lia].
    now rewrite Nat.sub_diag.
  - rewrite <- (firstn_skipn i hs) at 3.
    assert (Lf : length (firstn i hs) = i) by (rewrite firstn_length; lia).
    destruct (Nat.lt_ge_cases j i).
    + rewrite !nth_error_app1 by lia. reflexivity.
    + rewrite !nth_error_app2 by lia. rewrite Lf.
      destruct (j - i) as [|q] eqn:Eq; [lia|]. cbn.
      rewrite Nat.add_comm, skipn_add. cbn [skipn]. destruct (skipn i hs) as [|x t]; [|reflexivity].
      now destruct q.
Qed.
Lemma nth_lt {A} (l : list A) i x : nth_error l i = Some x -> i < length l.
Proof. intros H. apply nth_error_Some. congruence. Qed.

Lemma shiftHdrs_ok l dist B : forall fuel pre post hs,
  length (eid B) < fuel ->
  Lay hs l (length pre) B -> NoDup (map fst B) -> Forall (fun x => fst x < 256) B ->
  exists hs', shiftHdrs fuel (pre ++ eid B ++ post) hs (length pre) (length pre + elen B) dist = Some hs' /\
    length hs' = length hs /\ Lay hs' l (length pre + dist) B /\
    (forall i, ~ In i (map fst B) -> nth_error hs' i = nth_error hs i).
Proof.
  induction B as [|[i v] B IH]; intros fuel pre post hs Hf HL HD HB.
  - exists hs. assert (E : length pre + elen [] <= length pre) by (cbn; lia). cbn [Lay].
    destruct fuel; cbn [shiftHdrs]; destruct (Nat.ltb_spec (length pre) (length pre + elen [])); try lia; auto.
  - destruct fuel as [|fuel]; [lia|]. cbn [shiftHdrs].
    destruct (Nat.ltb_spec (length pre) (length pre + elen ((i, v) :: B))) as [_|C]; [|rewrite elen_cons in C; lia].
    inversion HB as [|? ? HB1 HB2]; cbn in HB1. inversion HD as [|? ? HD1 HD2].
    destruct HL as [(k & A1 & A2) HL].
    rewrite enc_cons, <- app_comm_cons. rewrite getIndex_mid by (auto; lia). rewrite Nat2N.id, A1. cbn [h_key h_size h_off].
    pose proof (nth_lt _ _ _ A1) as Hi.
    set (hs1 := setHdr hs i _).
    destruct (IH fuel (pre ++ N.of_nat i :: v) post hs1) as (hs' & E & L' & HL' & HN); auto.
    { rewrite enc_len, ?elen_cons in *. lia. }
    { rewrite app_length. cbn [length]. apply (Lay_ext hs l); [|exact HL].
      intros j Hj. split; [|reflexivity]. unfold hs1. rewrite setHdr_nth by assumption.
      destruct (Nat.eqb_spec j i); [subst; tauto|reflexivity]. }
    exists hs'. split; [|split; [|split]].
    + rewrite <- E. f_equal.
      * rewrite <- app_assoc. cbn. now rewrite <- app_assoc.
      * rewrite app_length. cbn. lia.
      * rewrite app_length. rewrite elen_cons. cbn. lia.
    + rewrite L'. unfold hs1. now apply setHdr_len.
    + split.
      * exists k. rewrite HN by assumption. unfold hs1. rewrite setHdr_nth, Nat.eqb_refl by assumption.
        auto.
      * rewrite app_length in HL'. cbn in HL'.
        replace (length pre + dist + S (length v)) with (length pre + S (length v) + dist) by lia. exact HL'.
    + intros j Hj. cbn in Hj. rewrite HN by tauto. unfold hs1. rewrite setHdr_nth by assumption.
      destruct (Nat.eqb_spec j i); [subst; tauto|reflexivity].
Qed.

Lemma shift_ok l dist B pre X post b : 
  v_data b = pre ++ eid B ++ X ++ post -> length X = dist ->
  Lay (v_hdrs b) l (length pre) B -> NoDup (map fst B) -> Forall (fun x => fst x < 256) B ->
  exists b' J, shiftEntriesData b (length pre) dist (elen B) = Some b' /\
    v_data b' = pre ++ J ++ eid B ++ post /\ length J = dist /\ v_total b' = v_total b /\
    length (v_hdrs b') = length (v_hdrs b) /\ Lay (v_hdrs b') l (length pre + dist) B /\
    (forall i, ~ In i (map fst B) -> nth_error (v_hdrs b') i = nth_error (v_hdrs b) i).
Proof.
  intros E EX HL HD HB. unfold shiftEntriesData. rewrite E.
  destruct (shiftHdrs_ok l dist B (S (elen B)) pre (X ++ post) (v_hdrs b)) as (hs' & -> & L' & HL' & HN); auto.
  { rewrite enc_len. lia. }
  rewrite rd_bytes_app_mid by (auto; now rewrite enc_len).
  set (M := eid B ++ X).
  assert (EM : M = firstn dist M ++ skipn dist M) by (symmetry; apply firstn_skipn).
  assert (LM : length M = elen B + dist) by (unfold M; rewrite app_length, enc_len; lia).
  assert (L1 : length (firstn dist M) = dist) by (rewrite firstn_length; lia).
  assert (L2 : length (skipn dist M) = elen B) by (rewrite skipn_length; lia).
  assert (E2 : pre ++ eid B ++ X ++ post = (pre ++ firstn dist M) ++ skipn dist M ++ post).
  { rewrite <- app_assoc. f_equal. rewrite !app_assoc. f_equal. exact EM. }
  rewrite E2, wr_app_mid.
  - eexists. exists (firstn dist M). split; [reflexivity|]. cbn. rewrite <- app_assoc. auto 10.
  - rewrite app_length. lia.
  - rewrite enc_len. lia.
Qed.

(** ** Rewriting header indices *)
Definition upd (g : nat -> nat) (i j : nat) : nat -> nat := fun x => if x =? i then j else g x.
Lemma enc_upd g i j bs : ~ In i (map fst bs) -> enc (upd g i j) bs = enc g bs.
Proof.
  intros H. apply enc_ext. intros x Hx. unfold upd. destruct (Nat.eqb_spec x i); [subst; tauto|reflexivity].
Qed.
Lemma mid_notin (a : list block) i v b : NoDup (map fst (a ++ (i, v) :: b)) -> ~ In i (map fst a) /\ ~ In i (map fst b).
Proof.
  rewrite map_app. cbn. intros H. apply NoDup_remove_2 in H. rewrite in_app_iff in H. tauto.
Qed.

Lemma setIndex_block hs l gap g bs i j : Lay hs l (length gap) bs -> NoDup (map fst bs) ->
  In i (map fst bs) -> j < 256 ->
  exists h, nth_error hs i = Some h /\
    (g i < 256 -> getIndex (gap ++ enc g bs) (h_off h) = Some (g i)) /\
    setIndex (gap ++ enc g bs) (h_off h) j = Some (gap ++ enc (upd g i j) bs).
Proof.
  intros HL HD HI Hj. destruct (Lay_in _ _ _ _ _ HL HI) as (a & v & b & k & -> & E1 & E2).
  eexists. split; [exact E1|]. cbn [h_off].
  destruct (mid_notin _ _ _ _ HD) as [N1 N2].
  assert (EE : forall f, gap ++ enc f (a ++ (i, v) :: b) = (gap ++ enc f a) ++ N.of_nat (f i) :: v ++ enc f b).
  { intros f. rewrite enc_app, <- !app_assoc. reflexivity. }
  assert (EL : length gap + elen a = length (gap ++ enc g a)) by (rewrite app_length, enc_len; reflexivity).
  rewrite !EE. split.
  - intros Hg. rewrite getIndex_mid by (auto; lia). now rewrite Nat2N.id.
  - rewrite setIndex_mid by auto. rewrite !enc_upd by assumption.
    unfold upd at 1. rewrite Nat.eqb_refl. reflexivity.
Qed.

Lemma reindex_ok hs l gap bs f : Lay hs l (length gap) bs -> NoDup (map fst bs) ->
  forall cnt from g,
  (forall i, from <= i < from + cnt -> In i (map fst bs) /\ g i < 256 /\ f (g i) < 256) ->
  exists g', reindex hs (gap ++ enc g bs) from cnt f = Some (gap ++ enc g' bs) /\
    forall i, g' i = if (from <=? i) && (i <? from + cnt) then f (g i) else g i.
Proof.
  intros HL HD. induction cnt as [|cnt IH]; intros from g H; cbn [reindex].
  - exists g. split; [reflexivity|]. intros i.
    destruct (Nat.leb_spec from i), (Nat.ltb_spec i (from + 0)); cbn; auto; lia.
  - destruct (H from) as (H1 & H2 & H3); [lia|].
    destruct (setIndex_block hs l gap g bs from (f (g from))) as (h & -> & G & Sx); auto.
    rewrite (G H2), Sx.
    destruct (IH (S from) (upd g from (f (g from)))) as (g' & E & Hg').
    { intros i Hi. unfold upd. destruct (Nat.eqb_spec i from); [lia|]. apply H. lia. }
    exists g'. split; [exact E|]. intros i. rewrite Hg'. unfold upd.
    destruct (Nat.eqb_spec i from) as [->|].
    + destruct (Nat.leb_spec (S from) from), (Nat.leb_spec from from), (Nat.ltb_spec from (from + S cnt)); cbn; auto; lia.
    + destruct (Nat.leb_spec (S from) i), (Nat.leb_spec from i), (Nat.ltb_spec i (S from + cnt)), (Nat.ltb_spec i (from + S cnt)); cbn; auto; lia.
Qed.
Lemma reindexFrom_ok hs l gap bs : Lay hs l (length gap) bs -> NoDup (map fst bs) ->
  forall cnt from g,
  (forall i, from <= i < from + cnt -> In i (map fst bs) /\ i < 256) ->
  exists g', reindexFrom hs (gap ++ enc g bs) from cnt = Some (gap ++ enc g' bs) /\
    forall i, g' i = if (from <=? i) && (i <? from + cnt) then i else g i.
Proof.
  intros HL HD. induction cnt as [|cnt IH]; intros from g H; cbn [reindexFrom].
  - exists g. split; [reflexivity|]. intros i.
    destruct (Nat.leb_spec from i), (Nat.ltb_spec i (from + 0)); cbn; auto; lia.
  - destruct (H from) as (H1 & H2); [lia|].
    destruct (setIndex_block hs l gap g bs from from) as (h & -> & G & Sx); auto.
    rewrite Sx.
    destruct (IH (S from) (upd g from from)) as (g' & E & Hg').
    { intros i Hi. apply H. lia. }
    exists g'. split; [exact E|]. intros i. rewrite Hg'. unfold upd.
    destruct (Nat.eqb_spec i from) as [->|].
    + destruct (Nat.leb_spec (S from) from), (Nat.leb_spec from from), (Nat.ltb_spec from (from + S cnt)); cbn; auto; lia.
    + destruct (Nat.leb_spec (S from) i), (Nat.leb_spec from i), (Nat.ltb_spec i (S from + cnt)), (Nat.ltb_spec i (from + S cnt)); cbn; auto; lia.
Qed.
