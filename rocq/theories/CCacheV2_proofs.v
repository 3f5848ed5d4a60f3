From Verif Require Import CCache_model CCache_spec CCacheF_proofs CCacheV_proofs.
From Coq Require Import Permutation.
Ltac Zify.zify_post_hook ::= idtac.

Lemma nth_ext_err {A} : forall (l l' : list A), (forall i, nth_error l i = nth_error l' i) -> l = l'.
Proof.
  induction l as [|x l IH]; intros [|y l'] H; try reflexivity.
  - specialize (H 0). discriminate.
  - specialize (H 0). discriminate.
  - pose proof (H 0) as E. injection E as ->. f_equal. apply IH. intros i. exact (H (S i)).
Qed.
Lemma nth_skip {A} n : forall (l : list A) j, nth_error (skipn n l) j = nth_error l (n + j).
Proof. induction n as [|n IH]; intros [|x l] j; cbn; auto. now destruct j. Qed.
Lemma nth_first {A} n : forall (l : list A) j, j < n -> nth_error (firstn n l) j = nth_error l j.
Proof. induction n as [|n IH]; intros [|x l] [|j] H; cbn; auto; try lia. apply IH. lia. Qed.
Lemma nodup_l {A} (a b : list A) : NoDup (a ++ b) -> NoDup a.
Proof.
  induction a as [|x a IH]; cbn; intros H; [constructor|]. inversion H as [|? ? H1 H2].
  constructor; [rewrite in_app_iff in H1; tauto|now apply IH].
Qed.
Lemma nodup_disj {A} (a b : list A) x : NoDup (a ++ b) -> In x a -> In x b -> False.
Proof.
  induction a as [|y a IH]; cbn; intros H H1 H2; [tauto|]. inversion H as [|? ? H3 H4].
  rewrite in_app_iff in H3. destruct H1 as [->|H1]; [tauto|now apply IH].
Qed.
(** ** The bucket represents the list [l] *)
Section Rep.
Variables (hsz maxv : nat).
Notation BDS := (bds hsz maxv).

Record RepW (b : vbucket) (l : list entry) (gap : list byte) (bs : list block) : Prop := {
  rw_data : v_data b = gap ++ eid bs;
  rw_len : length gap + elen bs = BDS;
  rw_total : v_total b = elen bs;
  rw_hs : length (v_hdrs b) = length l;
  rw_perm : Permutation (map fst bs) (seq 0 (length l));
  rw_lay : Lay (v_hdrs b) l (length gap) bs;
  rw_nd : NoDup (keys l);
  rw_n : length l <= 255;
  rw_room : length l * hsz + elen bs <= BDS }.
Definition Rep b l := exists gap bs, RepW b l gap bs.

Lemma perm_nd (bs : list block) n : Permutation (map fst bs) (seq 0 n) -> NoDup (map fst bs).
Proof. intros H. apply (Permutation_NoDup (Permutation_sym H)), seq_NoDup. Qed.
Lemma perm_in (bs : list block) n i : Permutation (map fst bs) (seq 0 n) -> (In i (map fst bs) <-> i < n).
Proof.
  intros H. split; intros HI.
  - apply (Permutation_in _ H), in_seq in HI. lia.
  - apply (Permutation_in _ (Permutation_sym H)), in_seq. lia.
Qed.
Lemma perm_small (bs : list block) n (B : list block) : Permutation (map fst bs) (seq 0 n) -> n <= 256 ->
  incl B bs -> Forall (fun x => fst x < 256) B.
Proof.
  intros H Hn HI. apply Forall_forall. intros x Hx.
  assert (fst x < n); [|lia]. apply (perm_in bs n _ H), in_map, HI, Hx.
Qed.

(** the total data size only depends on the list *)
Definition vlen (l : list entry) : nat := list_sum (map (fun e => S (length (snd e))) l).
Lemma nth_map_seq {A} (d : A) (l : list A) : map (fun i => nth i l d) (seq 0 (length l)) = l.
Proof.
  induction l as [|x l IH]; [reflexivity|]. cbn [length seq map nth]. f_equal.
  rewrite <- seq_shift, map_map. exact IH.
Qed.
Lemma list_sum_perm a b : Permutation a b -> list_sum a = list_sum b.
Proof. induction 1; cbn; unfold list_sum in *; lia. Qed.
Lemma Lay_vlen hs l off bs : Lay hs l off bs -> Permutation (map fst bs) (seq 0 (length l)) -> elen bs = vlen l.
Proof.
  intros HL HP. unfold elen, vlen.
  assert (E : map (fun x => S (length (snd x))) bs =
              map (fun i => nth i (map (fun e => S (length (snd e))) l) 0) (map fst bs)).
  { clear HP. revert off HL. induction bs as [|[i v] r IH]; intros off HL; [reflexivity|].
    destruct HL as [(k & _ & A) C]. cbn [map fst snd]. f_equal; [|eapply IH, C].
    erewrite nth_error_nth; [|erewrite map_nth_error by exact A; reflexivity]. reflexivity. }
  rewrite E. rewrite (list_sum_perm _ _ (Permutation_map _ HP)).
  replace (length l) with (length (map (fun e : N * list byte => S (length (snd e))) l)) by apply map_length.
  now rewrite nth_map_seq.
Qed.
Lemma cost_vlen l : cost hsz l = length l * hsz + vlen l.
Proof.
  induction l as [|e l IH]; [reflexivity|].
  change (cost hsz (e :: l)) with (hsz + 1 + length (snd e) + cost hsz l).
  change (vlen (e :: l)) with (S (length (snd e)) + vlen l). cbn [length]. lia.
Qed.

Lemma rep_val b l gap bs i : RepW b l gap bs -> i < length l ->
  exists k v pre post, bs = pre ++ (i, v) :: post /\ nth_error l i = Some (k, v) /\
    nth_error (v_hdrs b) i = Some {| h_key := k; h_size := length v; h_off := length gap + elen pre |}.
Proof.
  intros R Hi. destruct (Lay_in _ _ _ _ i (rw_lay _ _ _ _ R)) as (a & v & c & k & E & A & B).
  - apply (perm_in _ _ _ (rw_perm _ _ _ _ R)). assumption.
  - exists k, v, a, c. auto.
Qed.
Lemma rep_valueAt b l gap bs i k v : RepW b l gap bs -> nth_error l i = Some (k, v) -> valueAt b i = Some v.
Proof.
  intros R E. destruct (rep_val b l gap bs i R (nth_lt _ _ _ E)) as (k' & v' & pre & post & EB & E1 & E2).
  rewrite E in E1. injection E1 as <- <-. unfold valueAt. rewrite E2. cbn [h_off h_size].
  rewrite (rw_data _ _ _ _ R), EB, enc_app, enc_cons.
  replace (gap ++ eid pre ++ N.of_nat i :: v ++ eid post) with ((gap ++ eid pre ++ [N.of_nat i]) ++ v ++ eid post)
    by (rewrite <- !app_assoc; reflexivity).
  apply rd_bytes_app_mid; [|reflexivity]. rewrite !app_length, enc_len. cbn. lia.
Qed.
Lemma rep_keys b l : Rep b l -> map h_key (v_hdrs b) = keys l.
Proof.
  intros (gap & bs & R). apply nth_ext_err. intros i. unfold keys.
  destruct (Nat.lt_ge_cases i (length l)) as [H|H].
  - destruct (rep_val b l gap bs i R H) as (k & v & pre & post & _ & E1 & E2).
    erewrite !map_nth_error by eassumption. reflexivity.
  - assert (E1 : nth_error (map h_key (v_hdrs b)) i = None).
    { apply nth_error_None. rewrite map_length, (rw_hs _ _ _ _ R). assumption. }
    assert (E2 : nth_error (map fst l) i = None) by (apply nth_error_None; rewrite map_length; assumption).
    congruence.
Qed.
Lemma hfind_keys hs l k : map h_key hs = keys l ->
  match lookup l k with
  | None => hfind hs k = None
  | Some v => exists a c, l = a ++ (k, v) :: c /\ ~ In k (keys a) /\ hfind hs k = Some (length a)
  end.
Proof.
  revert l. induction hs as [|h hs IH]; intros [|[k' v'] l]; cbn; intros E; try discriminate; [reflexivity|].
  injection E as E1 E2. rewrite E1. destruct (N.eqb_spec k' k) as [->|Hne].
  - exists [], l. auto.
  - specialize (IH l E2). destruct (lookup l k).
    + destruct IH as (a & c & -> & Hn & ->). exists ((k', v') :: a), c. cbn. intuition.
    + rewrite IH. reflexivity.
Qed.

(** ** promote *)
Definition rot {A} (pos : nat) (l : list A) (x : A) : list A := x :: firstn pos l ++ skipn (pos + 1) l.
Definition rotI (pos i : nat) : nat := if i <? pos then S i else if i =? pos then 0 else i.
Definition unrotI (pos i : nat) : nat := if i =? 0 then pos else if i <=? pos then pred i else i.
Lemma rot_nth {A} pos (l : list A) x i : nth_error l pos = Some x ->
  nth_error (rot pos l x) (rotI pos i) = nth_error l i.
Proof.
  intros E. pose proof (nth_lt _ _ _ E) as L. unfold rot, rotI.
  assert (Lf : length (firstn pos l) = pos) by (rewrite firstn_length; lia).
  destruct (Nat.ltb_spec i pos).
  - cbn. rewrite nth_error_app1 by lia. apply nth_first; lia.
  - destruct (Nat.eqb_spec i pos) as [->|Hne]; [now symmetry|].
    destruct i as [|i]; [lia|]. match goal with |- nth_error (_ :: ?m) (S i) = _ => change (nth_error m i = nth_error l (S i)) end. rewrite nth_error_app2 by lia. rewrite Lf.
    rewrite nth_skip. f_equal. lia.
Qed.
Lemma rot_len {A} pos (l : list A) x : pos < length l -> length (rot pos l x) = length l.
Proof. intros H. unfold rot. cbn. rewrite app_length, firstn_length, skipn_length. lia. Qed.
Lemma rot_perm n pos : pos < n -> Permutation (map (rotI pos) (seq 0 n)) (seq 0 n).
Proof.
  intros H. apply NoDup_Permutation_bis.
  - apply FinFun.Injective_map_NoDup; [|apply seq_NoDup]. intros i j. unfold rotI.
    destruct (Nat.ltb_spec i pos), (Nat.ltb_spec j pos), (Nat.eqb_spec i pos), (Nat.eqb_spec j pos); lia.
  - rewrite map_length. lia.
  - intros i Hi. apply in_map_iff in Hi as (j & <- & Hj). apply in_seq in Hj. apply in_seq. unfold rotI.
    destruct (Nat.ltb_spec j pos), (Nat.eqb_spec j pos); lia.
Qed.
Lemma rot_mid a (k : N) (v : list byte) c : rot (length a) (a ++ (k, v) :: c) (k, v) = (k, v) :: a ++ c.
Proof. unfold rot. rewrite firstn_mid, skipn_mid. reflexivity. Qed.
Lemma rot_perm_l {A} pos (l : list A) x : nth_error l pos = Some x -> Permutation (rot pos l x) l.
Proof.
  intros E. apply nth_error_split in E as (a & c & -> & <-). unfold rot. rewrite firstn_mid, skipn_mid.
  apply Permutation_middle.
Qed.

Lemma vpromote_ok b l pos e : Rep b l -> nth_error l pos = Some e ->
  exists b', vpromote b pos = Some b' /\ Rep b' (rot pos l e).
Proof.
  intros (gap & bs & R) E. pose proof (nth_lt _ _ _ E) as Hp.
  destruct (rep_val b l gap bs pos R Hp) as (k & v & pre & post & EB & E1 & E2).
  unfold vpromote. rewrite E2.
  set (h := {| h_key := k; h_size := length v; h_off := length gap + elen pre |}) in *.
  fold (rot pos (v_hdrs b) h). destruct R as [RD RL RT RH RP RY RN Rn RR].
  assert (LY : Lay (rot pos (v_hdrs b) h) (rot pos l e) (length gap) (ren (rotI pos) bs)).
  { apply (Lay_ren _ (v_hdrs b) l); [|assumption]. intros i _. split; now apply rot_nth. }
  assert (PM : Permutation (map fst (ren (rotI pos) bs)) (seq 0 (length l))).
  { rewrite fst_ren. etransitivity; [apply Permutation_map, RP|]. now apply rot_perm. }
  assert (ED : v_data b = gap ++ enc (unrotI pos) (ren (rotI pos) bs)).
  { rewrite RD. f_equal. rewrite enc_ren. apply enc_ext. intros i Hi. unfold unrotI, rotI.
    destruct (Nat.ltb_spec i pos); [|destruct (Nat.eqb_spec i pos); [subst; reflexivity|]].
    - destruct (Nat.eqb_spec (S i) 0), (Nat.leb_spec (S i) pos); lia.
    - destruct (Nat.eqb_spec i 0), (Nat.leb_spec i pos); lia. }
  rewrite ED.
  destruct (reindexFrom_ok _ _ gap _ LY (perm_nd _ _ PM) (pos + 1) 0 (unrotI pos)) as (g' & -> & Hg).
  { intros i Hi. split; [apply (perm_in _ _ _ PM); lia|lia]. }
  eexists. split; [reflexivity|]. exists gap, (ren (rotI pos) bs). constructor; cbn [v_data v_total v_hdrs];
    rewrite ?elen_ren, ?rot_len by lia; try assumption.
  - f_equal. apply enc_ext. intros i Hi. rewrite Hg. unfold unrotI.
    destruct (Nat.leb_spec 0 i); [|lia].
    destruct (Nat.ltb_spec i (0 + (pos + 1))); cbn; [reflexivity|].
    destruct (Nat.eqb_spec i 0), (Nat.leb_spec i pos); lia.
  - apply (Permutation_NoDup (l := keys l)); [|assumption]. apply Permutation_map, Permutation_sym, rot_perm_l, E.
Qed.

(** ** del *)
Definition delI (pos i : nat) : nat := if pos <? i then pred i else i.
Lemma del_nth {A} pos (l : list A) i : i <> pos -> pos < length l ->
  nth_error (firstn pos l ++ skipn (pos + 1) l) (delI pos i) = nth_error l i.
Proof.
  intros Hne L. unfold delI. assert (Lf : length (firstn pos l) = pos) by (rewrite firstn_length; lia).
  destruct (Nat.ltb_spec pos i).
  - rewrite nth_error_app2 by lia. rewrite Lf.
    rewrite nth_skip. f_equal. lia.
  - rewrite nth_error_app1 by lia. apply nth_first; lia.
Qed.
Lemma del_perm (l1 : list nat) n pos : Permutation (pos :: l1) (seq 0 (S n)) -> Permutation (map (delI pos) l1) (seq 0 n).
Proof.
  intros H.
  assert (ND : NoDup (pos :: l1)) by (apply (Permutation_NoDup (Permutation_sym H)), seq_NoDup).
  inversion ND as [|? ? N1 N2]; subst.
  assert (LN : length l1 = n) by (apply Permutation_length in H; rewrite seq_length in H; cbn in H; lia).
  assert (PI : forall i, In i (pos :: l1) -> i < S n).
  { intros i Hi. apply (Permutation_in _ H), in_seq in Hi. lia. }
  assert (pos < S n) by (apply PI; now left).
  apply NoDup_Permutation_bis.
  - clear LN PI H ND. induction l1 as [|x l1 IH]; cbn; [constructor|]. inversion N2 as [|? ? N3 N4].
    cbn in N1. constructor; [|apply IH; tauto].
    intros C. apply in_map_iff in C as (y & E & Hy). unfold delI in E.
    assert (x <> y) by (intros <-; tauto). assert (y <> pos) by (intros ->; tauto).
    destruct (Nat.ltb_spec pos y), (Nat.ltb_spec pos x); lia.
  - rewrite map_length, seq_length. lia.
  - intros i Hi. apply in_map_iff in Hi as (j & <- & Hj). apply in_seq. unfold delI.
    assert (j <> pos) by (intros ->; tauto). specialize (PI j (or_intror Hj)).
    destruct (Nat.ltb_spec pos j); lia.
Qed.

Lemma rep_keys_nd_del a k v c : NoDup (keys (a ++ (k, v) :: c)) -> NoDup (keys (a ++ c)).
Proof. intros H. now apply NoDup_mid in H. Qed.

Lemma vdel_ok b a k v c : Rep b (a ++ (k, v) :: c) ->
  exists b', vdel hsz maxv b (length a) = Some b' /\ Rep b' (a ++ c).
Proof.
  set (l := a ++ (k, v) :: c). intros (gap & bs & R).
  assert (E : nth_error l (length a) = Some (k, v)) by (unfold l; apply nth_mid).
  pose proof (nth_lt _ _ _ E) as Hp. set (pos := length a) in *.
  destruct (rep_val b l gap bs pos R Hp) as (k' & v' & pre & post & EB & E1 & E2).
  rewrite E in E1. injection E1 as <- <-. unfold vdel. rewrite E2. cbn [h_size h_off].
  destruct R as [RD RL RT RH RP RY RN Rn RR].
  assert (FO : firstOff hsz maxv b = length gap) by (unfold firstOff; lia). rewrite FO.
  destruct (Nat.ltb_spec (length gap + elen pre) (length gap)); [lia|].
  replace (length gap + elen pre - length gap) with (elen pre) by lia.
  subst bs. apply Lay_app in RY as [Y1 Y2]. cbn [Lay] in Y2. destruct Y2 as [_ Y2].
  pose proof (perm_nd _ _ RP) as ND.
  destruct (mid_notin _ _ _ _ ND) as [NI1 NI2].
  destruct (shift_ok l (length v + 1) pre gap (encB (fun i => i) (pos, v)) (eid post) b)
    as (b1 & J & -> & D1 & LJ & T1 & H1 & LY1 & NN1).
  { rewrite RD, enc_app. reflexivity. }
  { cbn. lia. }
  { assumption. }
  { rewrite map_app in ND. apply nodup_l in ND. assumption. }
  { apply (perm_small _ _ _ RP); [lia|]. intros x Hx. apply in_or_app. now left. }
  assert (ND2 : NoDup (map fst (pre ++ post))).
  { rewrite map_app in *. cbn in ND. now apply NoDup_remove_1 in ND. }
  assert (LY : Lay (v_hdrs b1) l (length (gap ++ J)) (pre ++ post)).
  { apply Lay_app. rewrite app_length, LJ. split; [exact LY1|].
    replace (length gap + (length v + 1) + elen pre) with (length gap + elen pre + S (length v)) by lia.
    apply (Lay_ext (v_hdrs b) l); [|exact Y2]. intros i Hi. split; [|reflexivity]. apply NN1. intros C.
    rewrite map_app in ND2. exact (nodup_disj _ _ _ ND2 C Hi). }
  assert (PI : forall i, i <> pos -> i < length l -> In i (map fst (pre ++ post))).
  { intros i Hne Hi. apply (perm_in _ _ _ RP) in Hi. rewrite map_app in *. cbn in Hi.
    rewrite in_app_iff in *. cbn in Hi. destruct Hi as [Hi|[Hi|Hi]]; [now left|congruence|now right]. }
  rewrite D1, H1, RH. rewrite <- enc_app, app_assoc.
  destruct (reindex_ok _ _ _ _ pred LY ND2 (length l - (pos + 1)) (pos + 1) (fun i => i)) as (g' & -> & Hg).
  { intros i Hi. split; [apply PI; lia|lia]. }
  eexists. split; [reflexivity|].
  assert (EL : a ++ c = firstn pos l ++ skipn (pos + 1) l) by (unfold l, pos; rewrite firstn_mid, skipn_mid; reflexivity).
  assert (LL : S (length (a ++ c)) = length l) by (unfold l; rewrite !app_length; cbn; lia).
  rewrite elen_app, elen_cons in *.
  exists (gap ++ J), (ren (delI pos) (pre ++ post)). constructor; cbn [v_data v_total v_hdrs];
    rewrite ?elen_ren, ?elen_app.
  - f_equal. rewrite enc_ren. apply enc_ext. intros i Hi. rewrite Hg. unfold delI.
    assert (i < length l).
    { apply (perm_in _ _ _ RP). rewrite map_app in *. cbn. rewrite in_app_iff in *. cbn. tauto. }
    destruct (Nat.leb_spec (pos + 1) i), (Nat.ltb_spec pos i), (Nat.ltb_spec i (pos + 1 + (length l - (pos + 1)))); cbn; lia.
  - rewrite app_length. lia.
  - rewrite T1, RT. lia.
  - rewrite app_length, firstn_length, skipn_length. lia.
  - rewrite fst_ren. apply del_perm. rewrite LL. rewrite <- RP. rewrite !map_app. cbn. apply Permutation_middle.
  - rewrite EL. apply (Lay_ren _ (v_hdrs b1) l); [|exact LY]. intros i Hi.
    assert (i <> pos).
    { intros ->. rewrite map_app, in_app_iff in Hi. tauto. }
    split; apply del_nth; lia.
  - eapply rep_keys_nd_del. exact RN.
  - lia.
  - nia.
Qed.
End Rep.
