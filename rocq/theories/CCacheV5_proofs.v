From Verif Require Import CCache_model CCache_spec CCacheF_proofs CCacheV_proofs CCacheV2_proofs CCacheV3_proofs CCacheV4_proofs.
From Coq Require Import Permutation.
Ltac Zify.zify_post_hook ::= idtac.

Section Ops.
Variables (hsz maxv : nat).
Notation BDS := (bds hsz maxv).
Notation Rep := (Rep hsz maxv).
Notation RepW := (RepW hsz maxv).

Lemma perm_S (a : list nat) n : Permutation a (seq 0 n) -> Permutation (0 :: map S a) (seq 0 (S n)).
Proof. intros H. cbn. rewrite <- seq_shift. constructor. now apply Permutation_map. Qed.

Lemma vinsert_ok b l k v : Rep b l -> ~ In k (keys l) -> length v <= maxv -> length v <= 255 ->
  let n := keep hsz BDS (k, v) l (length l) in
  exists b', vinsert hsz maxv b k v = Some (Some (b', rev (skipn n l))) /\ Rep b' ((k, v) :: firstn n l).
Proof.
  intros R Hk H1 H2 n. unfold vinsert.
  destruct (Nat.ltb_spec maxv (length v)); [lia|]. destruct (Nat.ltb_spec 255 (length v)); [lia|].
  destruct (evictEntries_ok hsz maxv b l (k, v) R H1) as (b1 & E & R1 & C & N4). fold n in E, R1, C, N4.
  cbn [snd] in E. rewrite E.
  set (l1 := firstn n l) in *. destruct R1 as (gap & bs & R1).
  destruct (rep_cost hsz maxv b1 l1 gap bs R1) as [EC LC].
  assert (NK : ~ In k (keys l1)).
  { intros I. apply Hk. unfold keys, l1 in *. rewrite <- firstn_map in I.
    rewrite <- (firstn_skipn n (map fst l)). apply in_or_app. now left. }
  pose proof R1 as [RD RL RT RH RP RY RN Rn RR].
  change (cost hsz ((k, v) :: l1)) with (hsz + 1 + length v + cost hsz l1) in C.
  rewrite RH, RT. unfold sections.
  destruct (Nat.leb_spec ((length l1 + 1) * hsz + (elen bs + length v + 1)) BDS) as [_|C2]; [|lia]. cbn [negb].
  set (q := length gap - S (length v)).
  assert (EG : exists G x V, gap = G ++ x :: V /\ length G = q /\ length V = length v).
  { assert (Lg : S (length v) <= length gap) by lia.
    destruct (skipn q gap) as [|x V] eqn:ES.
    - apply (f_equal (@length _)) in ES. rewrite skipn_length in ES. cbn in ES. unfold q in ES. lia.
    - exists (firstn q gap), x, V. rewrite <- ES, firstn_skipn, firstn_length.
      apply (f_equal (@length _)) in ES. rewrite skipn_length in ES. cbn in ES. unfold q in *. repeat split; lia. }
  destruct EG as (G & x & V & EG & LG & LV).
  assert (LGap : length gap = q + S (length v)) by (unfold q; lia).
  assert (EO : BDS - (elen bs + length v + 1) = length G) by lia. rewrite EO.
  rewrite RD, EG.
  replace ((G ++ x :: V) ++ eid bs) with ((G ++ [x]) ++ V ++ eid bs) by (rewrite <- !app_assoc; reflexivity).
  rewrite wr_app_mid by (rewrite ?app_length; cbn; lia).
  replace ((G ++ [x]) ++ v ++ eid bs) with ((G ++ x :: v) ++ eid bs) by (rewrite <- !app_assoc; reflexivity).
  assert (LG2 : length (G ++ x :: v) = length gap) by (rewrite app_length; cbn; lia).
  assert (RY2 := RY). rewrite <- LG2 in RY2.
  destruct (reindex_ok _ _ (G ++ x :: v) bs S RY2 (perm_nd _ _ RP) (length l1) 0 (fun i => i)) as (g' & -> & Hg).
  { intros i Hi. split; [apply (perm_in _ _ _ RP); lia|]. unfold l1 in *. rewrite firstn_length in Hi. lia. }
  replace ((G ++ x :: v) ++ enc g' bs) with (G ++ x :: (v ++ enc g' bs)) by (rewrite <- !app_assoc; reflexivity).
  rewrite setIndex_mid by (auto; lia).
  eexists. split; [reflexivity|].
  exists G, ((0, v) :: ren S bs). constructor; cbn [v_data v_total v_hdrs].
  - rewrite enc_cons, enc_ren. do 3 f_equal. apply enc_ext. intros i Hi.
    apply (perm_in _ _ _ RP) in Hi. rewrite Hg. destruct (Nat.ltb_spec i (0 + length l1)); [|lia]. reflexivity.
  - rewrite elen_cons, elen_ren. lia.
  - rewrite elen_cons, elen_ren. lia.
  - cbn. lia.
  - cbn [map fst length]. rewrite fst_ren. now apply perm_S.
  - split; [exists k; auto|]. cbn. replace (length G + S (length v)) with (length gap) by lia.
    apply (Lay_ren _ (v_hdrs b1) l1); [|assumption]. auto.
  - cbn. constructor; assumption.
  - cbn. unfold l1. rewrite firstn_length. lia.
  - rewrite elen_cons, elen_ren. cbn. lia.
Qed.

(** replacing the value of one entry *)
Lemma set_nth {A} (a : list A) x y c i : i <> length a -> nth_error (a ++ y :: c) i = nth_error (a ++ x :: c) i.
Proof.
  intros H. destruct (Nat.lt_ge_cases i (length a)).
  - rewrite !nth_error_app1 by lia. reflexivity.
  - rewrite !nth_error_app2 by lia. destruct (i - length a) eqn:E; [lia|reflexivity].
Qed.
Lemma keys_set a k (w v : list byte) c : keys (a ++ (k, v) :: c) = keys (a ++ (k, w) :: c).
Proof. unfold keys. rewrite !map_app. reflexivity. Qed.

Lemma keep_full b a k w v c : Rep b (a ++ (k, w) :: c) -> length v <= length w ->
  keep hsz BDS (k, v) (a ++ c) (length (a ++ c)) = length (a ++ c).
Proof.
  intros (gap & bs & R) H. destruct (rep_cost hsz maxv b _ gap bs R) as [EC LC].
  pose proof (rw_n _ _ _ _ _ _ R) as Hn. rewrite cost_app in LC.
  change (cost hsz ((k, w) :: c)) with (hsz + 1 + length w + cost hsz c) in LC. rewrite app_length in Hn. cbn in Hn.
  assert (F : fits hsz BDS ((k, v) :: firstn (length (a ++ c)) (a ++ c)) = true).
  { rewrite firstn_all. unfold fits.
    change (cost hsz ((k, v) :: a ++ c)) with (hsz + 1 + length v + cost hsz (a ++ c)). rewrite cost_app.
    apply andb_true_intro. split; apply Nat.leb_le; [lia|]. cbn. rewrite app_length. lia. }
  destruct (length (a ++ c)) eqn:E; cbn [keep]; rewrite F; reflexivity.
Qed.

Lemma vupdate_ok b a k w v c : Rep b (a ++ (k, w) :: c) -> length v <= maxv -> length v <= 255 ->
  let l0 := a ++ c in let n := keep hsz BDS (k, v) l0 (length l0) in
  exists b', vupdate hsz maxv b (length a) v = Some (b', rev (skipn n l0)) /\ Rep b' ((k, v) :: firstn n l0).
Proof.
  intros RR0 H1 H2 l0 n. pose proof RR0 as (gap & bs & R).
  set (l := a ++ (k, w) :: c) in *. set (pos := length a) in *.
  assert (E : nth_error l pos = Some (k, w)) by (unfold l; apply nth_mid).
  pose proof (nth_lt _ _ _ E) as Hp.
  destruct (rep_val hsz maxv b l gap bs pos R Hp) as (k' & w' & pre & post & EB & E1 & E2).
  rewrite E in E1. injection E1 as <- <-. unfold vupdate. rewrite E2. cbn [h_size h_off h_key].
  pose proof R as [RD RL RT RH RP RY RN Rn RM].
  pose proof (perm_nd _ _ RP) as ND.
  destruct (Nat.eqb_spec (length w) (length v)) as [EV|EV].
  - (* same size *)
    assert (EW : v_data b = (gap ++ eid pre ++ [N.of_nat pos]) ++ w ++ eid post).
    { rewrite RD, EB, enc_app, enc_cons, <- !app_assoc. reflexivity. }
    rewrite EW, wr_app_mid; [|rewrite !app_length, enc_len; cbn; lia|lia].
    set (bX := {| v_hdrs := _; v_total := _; v_data := _ |}).
    assert (RX : Rep bX (a ++ (k, v) :: c)).
    { subst bs. destruct (mid_notin _ _ _ _ ND) as [NI1 NI2].
      assert (EE : elen (pre ++ (pos, v) :: post) = elen (pre ++ (pos, w) :: post)) by (rewrite !elen_app, !elen_cons; lia).
      assert (EL : length (a ++ (k, v) :: c) = length l) by (unfold l; rewrite !app_length; reflexivity).
      exists gap, (pre ++ (pos, v) :: post). constructor; cbn [v_data v_total v_hdrs bX]; rewrite ?EE, ?EL; auto.
      - rewrite enc_app, enc_cons, <- !app_assoc. reflexivity.
      - rewrite map_app in *. exact RP.
      - apply Lay_app in RY as [Y1 Y2]. cbn [Lay] in Y2. destruct Y2 as [_ Y2]. apply Lay_app. split.
        + apply (Lay_ext (v_hdrs b) l); [|exact Y1]. intros i Hi. split; [reflexivity|]. apply set_nth.
          intros ->. fold pos in Hi. tauto.
        + cbn [Lay]. split.
          * exists k. rewrite E2, EV. split; [reflexivity|apply nth_mid].
          * rewrite <- EV. apply (Lay_ext (v_hdrs b) l); [|exact Y2]. intros i Hi. split; [reflexivity|]. apply set_nth.
            intros ->. fold pos in Hi. tauto.
      - rewrite (keys_set a k w v c). exact RN. }
    destruct (vpromote_ok hsz maxv bX _ pos (k, v) RX) as (b' & -> & RF); [apply nth_mid|].
    assert (n = length l0) as -> by (apply (keep_full b a k w v c RR0); lia).
    rewrite skipn_all, firstn_all. exists b'. split; [reflexivity|]. unfold pos in RF. rewrite rot_mid in RF. exact RF.
  - destruct (Nat.ltb_spec (length v) (length w)) as [LT|GE].
    + (* smaller *)
      set (dist := length w - length v).
      assert (EW2 : exists (X : list byte) (y : byte) (V : list byte), (N.of_nat pos : byte) :: w = X ++ y :: V /\ length X = dist /\ length V = length v).
      { destruct (skipn dist ((N.of_nat pos : byte) :: w)) as [|y V] eqn:ES;
          pose proof (f_equal (@length _) ES) as EQ; rewrite skipn_length in EQ; cbn [length] in EQ; unfold dist in *; change (@length N w) with (@length byte w) in *; [lia|].
        exists (firstn (length w - length v) ((N.of_nat pos : byte) :: w)), y, V. rewrite <- ES, firstn_skipn, firstn_length.
        cbn [length]. change (@length N w) with (@length byte w) in *. change (@length N V) with (@length byte V) in *. repeat split; lia. }
      destruct EW2 as (X & y & V & EX & LX & LV).
      assert (EW : v_data b = (gap ++ eid pre ++ X ++ [y]) ++ V ++ eid post).
      { rewrite RD, EB, enc_app, enc_cons, <- !app_assoc.
        change (N.of_nat pos :: w ++ eid post) with (((N.of_nat pos : byte) :: w) ++ eid post).
        rewrite EX, <- app_assoc. reflexivity. }
      rewrite EW, wr_app_mid; [|rewrite !app_length, enc_len; cbn; lia|lia].
      replace ((gap ++ eid pre ++ X ++ [y]) ++ v ++ eid post) with ((gap ++ eid pre ++ X) ++ y :: (v ++ eid post))
        by (rewrite <- !app_assoc; reflexivity).
      rewrite setIndex_mid; [|rewrite !app_length, enc_len; lia|lia].
      assert (FO : firstOff hsz maxv b = length gap) by (unfold firstOff; lia). rewrite FO.
      destruct (Nat.ltb_spec (length gap + elen pre) (length gap)); [lia|].
      replace (length gap + elen pre - length gap) with (elen pre) by lia.
      set (bX := {| v_hdrs := _; v_total := _; v_data := _ |}).
      subst bs. destruct (mid_notin _ _ _ _ ND) as [NI1 NI2].
      apply Lay_app in RY as [Y1 Y2]. cbn [Lay] in Y2. destruct Y2 as [_ Y2].
      destruct (shift_ok l dist pre gap X (N.of_nat pos :: v ++ eid post) bX)
        as (b1 & J & -> & D1 & LJ & T1 & HH1 & LY1 & NN1); auto.
      { cbn. rewrite <- !app_assoc. reflexivity. }
      { rewrite map_app in ND. now apply nodup_l in ND. }
      { apply (perm_small _ _ _ RP); [lia|]. intros x Hx. apply in_or_app. now left. }
      rewrite NN1 by assumption. cbn [v_hdrs bX]. rewrite E2. cbn [h_key h_off].
      set (h1 := {| h_key := k; h_size := length v; h_off := length gap + elen pre + dist |}).
      cbn [v_hdrs bX] in HH1, NN1. cbn [v_total bX] in T1.
      assert (Hp1 : pos < length (v_hdrs b1)) by (rewrite HH1, RH; assumption).
      set (bY := {| v_hdrs := setHdr (v_hdrs b1) pos h1; v_total := v_total b1 - dist; v_data := v_data b1 |}).
      assert (EE : elen (pre ++ (pos, v) :: post) + dist = elen (pre ++ (pos, w) :: post))
        by (rewrite !elen_app, !elen_cons; unfold dist; lia).
      assert (EL : length (a ++ (k, v) :: c) = length l) by (unfold l; rewrite !app_length; reflexivity).
      assert (DJ : forall i, In i (map fst post) -> ~ In i (map fst pre)).
      { intros i I1 I2. rewrite map_app in ND. cbn in ND. apply NoDup_remove_1 in ND. exact (nodup_disj _ _ _ ND I2 I1). }
      assert (RX : Rep bY (a ++ (k, v) :: c)).
      { exists (gap ++ J), (pre ++ (pos, v) :: post). constructor; cbn [v_data v_total v_hdrs bY]; rewrite ?EL; auto.
        - rewrite D1, enc_app, enc_cons, <- !app_assoc. reflexivity.
        - rewrite app_length. lia.
        - rewrite T1. lia.
        - rewrite setHdr_len, HH1, RH by lia. reflexivity.
        - rewrite map_app in *. exact RP.
        - rewrite app_length, LJ. apply Lay_app. split.
          + apply (Lay_ext (v_hdrs b1) l); [|exact LY1]. intros i Hi. rewrite setHdr_nth by assumption.
            destruct (Nat.eqb_spec i pos) as [->|Hne]; [tauto|]. split; [reflexivity|]. now apply set_nth.
          + cbn [Lay]. split.
            * exists k. rewrite setHdr_nth, Nat.eqb_refl by assumption. split; [|apply nth_mid].
              unfold h1. do 2 f_equal. lia.
            * replace (length gap + dist + elen pre + S (length v)) with (length gap + elen pre + S (length w))
                by (unfold dist; lia).
              apply (Lay_ext (v_hdrs b) l); [|exact Y2]. intros i Hi. rewrite setHdr_nth by assumption.
              destruct (Nat.eqb_spec i pos) as [->|Hne]; [tauto|]. split; [apply NN1, DJ, Hi|]. now apply set_nth.
        - rewrite (keys_set a k w v c). exact RN.
        - lia. }
      destruct (vpromote_ok hsz maxv bY _ pos (k, v) RX) as (b' & -> & RF); [apply nth_mid|].
      assert (n = length l0) as -> by (apply (keep_full b a k w v c RR0); lia).
      rewrite skipn_all, firstn_all. exists b'. split; [reflexivity|]. unfold pos in RF. rewrite rot_mid in RF. exact RF.
    + (* bigger *)
      destruct (vdel_ok hsz maxv b a k w c RR0) as (b1 & ED & R1). fold pos in ED. rewrite ED.
      apply NoDup_mid in RN as [RN1 RN2].
      destruct (vinsert_ok b1 l0 k v R1 RN2 H1 H2) as (b2 & -> & R2).
      exists b2. split; [reflexivity|exact R2].
Qed.

Lemma vstep_ok b l o : Rep b l -> vLegal maxv o ->
  exists b' l' r ev, vstep hsz maxv b o = Some (b', r, ev) /\ vspec hsz maxv l o = (l', r, ev) /\ Rep b' l'.
Proof.
  intros R Ho. pose proof (rep_keys hsz maxv b l R) as EK.
  assert (ND : NoDup (keys l)) by (destruct R as (gap & bs & R); apply (rw_nd _ _ _ _ _ _ R)).
  destruct o as [k v|k|k|k]; cbn in Ho; cbn [vstep vspec]; pose proof (hfind_keys (v_hdrs b) l k EK) as HF;
    destruct (lookup l k) as [w|] eqn:E.
  - destruct Ho as [H1 H2]. destruct HF as (a & c & -> & Hn & ->).
    destruct (vupdate_ok b a k w v c R H1 H2) as (b' & E1 & R'). rewrite E1.
    rewrite without_mid by assumption. do 4 eexists. split; [reflexivity|]. split; [reflexivity|exact R'].
  - destruct Ho as [H1 H2]. rewrite HF. apply lookup_none in E.
    rewrite (without_notin l k E).
    destruct (vinsert_ok b l k v R E H1 H2) as (b' & -> & R').
    do 4 eexists. split; [reflexivity|]. split; [reflexivity|exact R'].
  - destruct HF as (a & c & -> & Hn & ->). destruct R as (gap & bs & R).
    rewrite (rep_valueAt hsz maxv b _ gap bs (length a) k w R (nth_mid _ _ _)).
    do 4 eexists. split; [reflexivity|]. split; [reflexivity|]. exists gap, bs. exact R.
  - rewrite HF. do 4 eexists. split; [reflexivity|]. split; [reflexivity|exact R].
  - destruct HF as (a & c & -> & Hn & ->). rewrite behind_mid by assumption. unfold vneeds.
    destruct (Nat.ltb_spec 1 (length a)), (Nat.leb_spec 2 (length a)); try lia.
    + destruct (vpromote_ok hsz maxv b _ (length a) (k, w) R (nth_mid _ _ _)) as (b' & -> & R').
      rewrite rot_mid in R'. rewrite without_mid by assumption.
      do 4 eexists. split; [reflexivity|]. split; [reflexivity|exact R'].
    + do 4 eexists. split; [reflexivity|]. split; [reflexivity|exact R].
  - rewrite HF. do 4 eexists. split; [reflexivity|]. split; [reflexivity|exact R].
  - destruct HF as (a & c & -> & Hn & ->). pose proof R as (gap & bs & R0).
    rewrite (rep_valueAt hsz maxv b _ gap bs (length a) k w R0 (nth_mid _ _ _)).
    destruct (vdel_ok hsz maxv b a k w c R) as (b' & -> & R').
    rewrite without_mid by assumption. do 4 eexists. split; [reflexivity|]. split; [reflexivity|exact R'].
  - rewrite HF. do 4 eexists. split; [reflexivity|]. split; [reflexivity|exact R].
Qed.

Lemma vhist_ok : forall os b l, Rep b l -> Forall (vLegal maxv) os ->
  exists b', hist (vstep hsz maxv) b os = Some (b', snd (shist (vspec hsz maxv) l os)) /\
    Rep b' (fst (shist (vspec hsz maxv) l os)).
Proof.
  induction os as [|o os IH]; intros b l HR HF; cbn.
  - exists b. auto.
  - inversion HF; subst. destruct (vstep_ok b l o) as (b' & l' & r & ev & E1 & E2 & HR'); auto.
    rewrite E1, E2. destruct (IH b' l' HR') as (b'' & E3 & HR''); [assumption|].
    rewrite E3. destruct (shist (vspec hsz maxv) l' os) as [l'' out]. cbn in *. eauto.
Qed.
Lemma vinit_rep g : length g = BDS -> Rep (vinit g) [].
Proof.
  intros H. exists g, []. constructor; cbn; auto; try lia; try constructor. now rewrite app_nil_r.
Qed.

Lemma oversize_existing b a k w c v : Rep b (a ++ (k, w) :: c) -> length w < length v ->
  (maxv < length v \/ 255 < length v) ->
  exists b', vstep hsz maxv b (OSet k v) = Some (b', RFound None, []) /\ Rep b' (a ++ c).
Proof.
  intros R L HO. pose proof (rep_keys hsz maxv b _ R) as EK.
  assert (ND : NoDup (keys (a ++ (k, w) :: c))) by (destruct R as (gap & bs & R); apply (rw_nd _ _ _ _ _ _ R)).
  assert (HF : hfind (v_hdrs b) k = Some (length a)).
  { pose proof (hfind_keys (v_hdrs b) _ k EK) as HF.
    assert (NA : ~ In k (keys a)) by (apply NoDup_mid in ND as [_ ND]; rewrite keys_app, in_app_iff in ND; tauto).
    assert (EL : lookup (a ++ (k, w) :: c) k = Some w).
    { clear - NA. induction a as [|[x y] a IH]; cbn.
      - now rewrite N.eqb_refl.
      - cbn in NA. destruct (N.eqb_spec x k); [tauto|]. apply IH. tauto. }
    rewrite EL in HF. destruct HF as (a' & c' & E1 & N1 & ->). f_equal.
    clear - E1 N1 NA. revert a' E1 N1. induction a as [|[x y] a IH]; intros [|[x' y'] a'] E1 N1; cbn in *; auto.
    - injection E1 as -> _ _. tauto.
    - injection E1 as -> _ _. tauto.
    - injection E1 as _ _ E1. f_equal. apply IH; auto. }
  cbn [vstep]. rewrite HF. unfold vupdate. pose proof R as (gap & bs & R0).
  destruct (rep_val hsz maxv b _ gap bs (length a) R0) as (k' & w' & pre & post & EB & E1 & E2).
  { rewrite app_length. cbn. lia. }
  rewrite nth_mid in E1. injection E1 as <- <-. rewrite E2. cbn [h_size h_key].
  destruct (Nat.eqb_spec (length w) (length v)); [lia|]. destruct (Nat.ltb_spec (length v) (length w)); [lia|].
  destruct (vdel_ok hsz maxv b a k w c R) as (b1 & -> & R1). unfold vinsert.
  destruct (Nat.ltb_spec maxv (length v)); [|destruct (Nat.ltb_spec 255 (length v)); [|lia]]; exists b1; auto.
Qed.
Lemma oversize_absent b l k v : Rep b l -> ~ In k (keys l) -> (maxv < length v \/ 255 < length v) ->
  vstep hsz maxv b (OSet k v) = Some (b, RError, []).
Proof.
  intros R HN HO. pose proof (hfind_keys (v_hdrs b) l k (rep_keys hsz maxv b l R)) as HF.
  assert (EL : lookup l k = None).
  { destruct (lookup l k) eqn:E; [|reflexivity]. apply lookup_split in E as (a & c & -> & _).
    exfalso. apply HN. rewrite keys_app, in_app_iff. cbn. auto. }
  rewrite EL in HF. cbn [vstep]. rewrite HF. unfold vinsert.
  destruct (Nat.ltb_spec maxv (length v)); [|destruct (Nat.ltb_spec 255 (length v)); [|lia]]; reflexivity.
Qed.
End Ops.
