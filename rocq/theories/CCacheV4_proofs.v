From Verif Require Import CCache_model CCache_spec CCacheF_proofs CCacheV_proofs CCacheV2_proofs CCacheV3_proofs.
From Coq Require Import Permutation.
Ltac Zify.zify_post_hook ::= idtac.

Section Ops.
Variables (hsz maxv : nat).
Notation BDS := (bds hsz maxv).
Notation Rep := (Rep hsz maxv).
Notation RepW := (RepW hsz maxv).

Lemma nodup_filter {A} f (l : list A) : NoDup l -> NoDup (filter f l).
Proof. apply NoDup_filter. Qed.
Lemma nodup_firstn {A} n (l : list A) : NoDup l -> NoDup (firstn n l).
Proof. intros H. rewrite <- (firstn_skipn n l) in H. now apply nodup_l in H. Qed.

(** Dropping the last entries of the list. *)
Lemma drop_ok b l gap bs m : RepW b l gap bs -> m <= length l ->
  exists b' dist, moveChunks hsz maxv b (rev (sortByOff b (rev (seq m (length l - m))))) 0 = Some (b', dist) /\
    Rep {| v_hdrs := firstn m (v_hdrs b'); v_total := v_total b' - dist; v_data := v_data b' |} (firstn m l).
Proof.
  intros R Hm. rewrite (sort_evicted hsz maxv b l gap bs m R Hm).
  pose proof R as [RD RL RT RH RP RY RN Rn RR].
  pose proof (perm_nd _ _ RP) as ND.
  assert (EF : firstOff hsz maxv b = length gap) by (unfold firstOff; lia).
  assert (HX : exists b' J', moveChunks hsz maxv b (rev (map fst (fEv m bs))) 0 = Some (b', elen (fEv m bs)) /\
     v_data b' = gap ++ J' ++ eid (fKeep m bs) /\ length J' = elen (fEv m bs) /\
     v_total b' = v_total b /\ length (v_hdrs b') = length (v_hdrs b) /\
     Lay (v_hdrs b') l (length gap + length J') (fKeep m bs)).
  { destruct (last_ev m bs) as [HN|(a & p & v & c & EB & Hp & Hc)].
    - exists b, []. rewrite HN, (fKeep_all m bs HN). cbn. rewrite Nat.add_0_r. auto 10.
    - assert (E1 : fEv m bs = fEv m (a ++ [(p, v)])).
      { rewrite EB, !fEv_app. f_equal. unfold fEv in *. cbn. now rewrite Hp, Hc. }
      assert (E2 : fKeep m bs = fKeep m (a ++ [(p, v)]) ++ c).
      { rewrite EB, !fKeep_app, <- app_assoc. f_equal. change ((p, v) :: c) with ([(p, v)] ++ c).
        rewrite fKeep_app. f_equal. now apply fKeep_all. }
      assert (EB2 : bs = (a ++ [(p, v)]) ++ c) by (rewrite EB, <- app_assoc; reflexivity).
      assert (RY2 := RY). rewrite EB2 in RY2. apply Lay_app in RY2 as [Y1 Y2].
      destruct (moveChunks_ok hsz maxv m l gap (rev (map fst (fEv m bs))) (a ++ [(p, v)]) c [] b 0)
        as (b' & J' & E' & D' & LJ & T & H' & LY); auto.
      + now rewrite E1.
      + right. exists a, p, v. auto.
      + rewrite RD, EB2, enc_app. reflexivity.
      + now rewrite Nat.add_0_r.
      + now rewrite <- EB2.
      + apply (perm_small bs _ _ RP); [lia|]. rewrite EB2. intros x Hx. apply in_or_app. now left.
      + exists b', J'. rewrite E', E1, E2. auto 10. }
  destruct HX as (b' & J' & E & D & LJ & T & H' & LY). exists b', (elen (fEv m bs)). split; [exact E|].
  assert (PK : Permutation (map fst (fKeep m bs)) (seq 0 (length (firstn m l)))).
  { unfold fKeep. rewrite (map_filter_fst (fun i => negb (evb m i)) bs).
    etransitivity; [apply filter_perm, RP|]. rewrite filter_seq_lt.
    replace (Nat.min (length l) (m - 0)) with (length (firstn m l)) by (rewrite firstn_length; lia). reflexivity. }
  assert (EP : elen (fEv m bs) + elen (fKeep m bs) = elen bs).
  { clear. induction bs as [|[i v] r IH]; [reflexivity|]. unfold fEv, fKeep in *. cbn [filter fst].
    destruct (evb m i); cbn [negb]; rewrite ?elen_cons in *; lia. }
  exists (gap ++ J'), (fKeep m bs). constructor; cbn [v_data v_total v_hdrs].
  - now rewrite D, <- app_assoc.
  - rewrite app_length. lia.
  - lia.
  - rewrite !firstn_length. lia.
  - exact PK.
  - rewrite app_length. apply (Lay_ext (v_hdrs b') l); [|exact LY]. intros i Hi.
    apply (perm_in _ _ _ PK) in Hi. rewrite firstn_length in Hi. split; apply nth_first; lia.
  - unfold keys. rewrite <- firstn_map. now apply nodup_firstn.
  - rewrite firstn_length. lia.
  - rewrite firstn_length. assert (Nat.min m (length l) * hsz <= length l * hsz) by (apply Nat.mul_le_mono_r; lia). lia.
Qed.

Lemma cost_app a c : cost hsz (a ++ c) = cost hsz a + cost hsz c.
Proof.
  induction a as [|e a IH]; [reflexivity|].
  change (cost hsz ((e :: a) ++ c)) with (hsz + 1 + length (snd e) + cost hsz (a ++ c)).
  change (cost hsz (e :: a)) with (hsz + 1 + length (snd e) + cost hsz a). lia.
Qed.
Lemma firstn_snoc {A} n (l : list A) x : nth_error l n = Some x -> firstn (S n) l = firstn n l ++ [x].
Proof.
  intros E. apply nth_error_split in E as (a & c & -> & <-).
  rewrite firstn_mid, firstn_app, firstn_all2 by lia. f_equal. replace (S (length a) - length a) with 1 by lia. reflexivity.
Qed.

Lemma rep_cost b l gap bs : RepW b l gap bs -> cost hsz l = length l * hsz + elen bs /\ cost hsz l <= BDS.
Proof.
  intros R. rewrite cost_vlen, <- (Lay_vlen _ _ _ _ (rw_lay _ _ _ _ _ _ R) (rw_perm _ _ _ _ _ _ R)).
  split; [reflexivity|]. exact (rw_room _ _ _ _ _ _ R).
Qed.

Lemma keep_le e l n : keep hsz BDS e l n <= n.
Proof. induction n; cbn [keep]; destruct (fits _ _ _); lia. Qed.

Lemma evictLoop_ok b l gap bs e : RepW b l gap bs -> length (snd e) <= maxv ->
  forall pos free, pos <= length l -> pos <= 254 -> free + cost hsz (firstn pos l) = BDS ->
  evictLoop hsz b pos free (length (snd e) + hsz + 1) =
    Some (rev (seq (keep hsz BDS e l pos) (pos - keep hsz BDS e l pos))).
Proof.
  intros R He. induction pos as [|pos IH]; intros free Hp H4 HF.
  - cbn [evictLoop keep]. cbn in HF. destruct (Nat.ltb_spec free (length (snd e) + hsz + 1)) as [C|C].
    + unfold bds in HF. lia.
    + destruct (fits _ _ _); reflexivity.
  - assert (FT : fits hsz BDS (e :: firstn (S pos) l) = negb (free <? length (snd e) + hsz + 1)).
    { unfold fits. assert (LF : length (e :: firstn (S pos) l) <=? 255 = true).
      { apply Nat.leb_le. cbn [length]. rewrite firstn_length. lia. }
      rewrite LF, andb_true_r.
      change (cost hsz (e :: firstn (S pos) l)) with (hsz + 1 + length (snd e) + cost hsz (firstn (S pos) l)).
      destruct (Nat.leb_spec (hsz + 1 + length (snd e) + cost hsz (firstn (S pos) l)) BDS),
        (Nat.ltb_spec free (length (snd e) + hsz + 1)); cbn; auto; lia. }
    cbn [evictLoop keep]. rewrite FT. destruct (Nat.ltb_spec free (length (snd e) + hsz + 1)) as [C|C]; cbn [negb].
    + destruct (rep_val hsz maxv b l gap bs pos R) as (k & v & pre & post & _ & E1 & E2); [lia|].
      rewrite E2. cbn [h_size]. rewrite IH; [| lia | lia |].
      * f_equal. pose proof (keep_le e l pos) as KL.
        replace (S pos - keep hsz BDS e l pos) with (S (pos - keep hsz BDS e l pos)) by lia.
        rewrite seq_S, rev_app_distr. cbn. f_equal. lia.
      * rewrite (firstn_snoc _ _ _ E1), cost_app in HF. cbn [cost fold_right snd] in HF. unfold cost in *. cbn in HF. lia.
    + rewrite Nat.sub_diag. reflexivity.
Qed.

Lemma evicted_list b l gap bs (R : RepW b l gap bs) arr : Forall (fun p => p < length l) arr ->
  fold_right (fun p acc =>
          let* r := acc in let* h := nth_error (v_hdrs b) p in let* v := valueAt b p in
          Some ((h_key h, v) :: r)) (Some []) arr = Some (map (fun p => nth p l (0%N, [])) arr).
Proof.
  induction arr as [|p arr IH]; intros H; [reflexivity|]. inversion H as [|? ? H1 H2]. cbn [fold_right map].
  rewrite IH by assumption.
  destruct (rep_val hsz maxv b l gap bs p R H1) as (k & v & pre & post & _ & E1 & E2).
  rewrite E2, (rep_valueAt hsz maxv b l gap bs p k v R E1). cbn [h_key].
  rewrite (nth_error_nth l p _ E1). reflexivity.
Qed.
Lemma map_nth_skip {A} (d : A) (l : list A) m : m <= length l -> map (fun p => nth p l d) (seq m (length l - m)) = skipn m l.
Proof.
  revert m. induction l as [|x l IH]; intros [|m] H; [reflexivity|cbn in H; lia| |].
  - rewrite Nat.sub_0_r. apply (nth_map_seq d (x :: l)).
  - cbn [length skipn]. cbn in H. change (S (length l) - S m) with (length l - m).
    rewrite <- seq_shift, map_map. apply IH. lia.
Qed.

Lemma evictEntries_ok b l e : Rep b l -> length (snd e) <= maxv ->
  let n := keep hsz BDS e l (length l) in
  exists b', evictEntries hsz maxv b (length (snd e) + hsz + 1) = Some (b', rev (skipn n l)) /\
    Rep b' (firstn n l) /\ cost hsz (e :: firstn n l) <= BDS /\ n <= 254.
Proof.
  intros (gap & bs & R) He n. destruct (rep_cost b l gap bs R) as [EC LC].
  pose proof R as [RD RL RT RH RP RY RN Rn RR].
  assert (KF : forall q, cost hsz (e :: firstn (keep hsz BDS e l q) l) <= BDS /\ keep hsz BDS e l q <= 254 \/ length l < keep hsz BDS e l q).
  { induction q as [|q IH]; cbn [keep].
    - left. destruct (fits hsz BDS (e :: firstn 0 l)); cbn; unfold bds; lia.
    - destruct (fits hsz BDS (e :: firstn (S q) l)) eqn:F; [|assumption].
      unfold fits in F. apply andb_true_iff in F as [F1 F2]. apply Nat.leb_le in F1. apply Nat.leb_le in F2.
      cbn [length] in F2. rewrite firstn_length in F2. destruct (Nat.lt_ge_cases (length l) (S q)); [now right|left; lia]. }
  assert (KN : n <= length l) by apply keep_le.
  assert (KF2 : cost hsz (e :: firstn n l) <= BDS /\ n <= 254) by (destruct (KF (length l)); [assumption|unfold n in KN; lia]).
  unfold evictEntries. rewrite RH, RT.
  destruct (Nat.ltb_spec BDS (elen bs + hsz * length l)); [lia|].
  set (free := BDS - elen bs - hsz * length l).
  assert (HF : free + cost hsz l = BDS) by (unfold free; lia).
  destruct (Nat.leb_spec (length (snd e) + hsz + 1) free) as [C|C];
    destruct (Nat.eqb_spec (length l) 255) as [D|D]; cbn [andb negb].
  2:{ (* nothing to evict *)
    assert (n = length l) as ->.
    { unfold n. destruct (length l) as [|q] eqn:El; [subst n; lia|]. cbn [keep]. rewrite <- El.
      rewrite firstn_all. unfold fits. change (cost hsz (e :: l)) with (hsz + 1 + length (snd e) + cost hsz l). cbn [length].
      destruct (Nat.leb_spec (hsz + 1 + length (snd e) + cost hsz l) BDS); [|lia].
      destruct (Nat.leb_spec (S (length l)) 255); [|lia]. reflexivity. }
    exists b. rewrite skipn_all, firstn_all. split; [reflexivity|]. split; [now exists gap, bs|]. rewrite firstn_all in KF2. exact KF2. }
  1,2,3: assert (HA : (if length l =? 255 then
           match length l with
           | O => None
           | S p => let* h := nth_error (v_hdrs b) p in
                    let* r := evictLoop hsz b p (free + h_size h + hsz + 1) (length (snd e) + hsz + 1) in
                    Some (p :: r)
           end
         else evictLoop hsz b (length l) free (length (snd e) + hsz + 1)) = Some (rev (seq n (length l - n)))).
  1,3: destruct (length l) as [|p] eqn:El; [lia|];
      assert (FN : fits hsz BDS (e :: firstn (S p) l) = false)
        by (unfold fits; apply andb_false_iff; right; apply Nat.leb_gt; cbn [length]; rewrite firstn_length; lia);
      destruct (Nat.eqb_spec (S p) 255); [|lia];
      destruct (rep_val hsz maxv b l gap bs p R) as (k & v & pre & post & _ & E1 & E2); [lia|];
      rewrite E2; cbn [h_size];
      rewrite <- (firstn_all l) in HF; rewrite El, (firstn_snoc _ _ _ E1), cost_app in HF; cbn [cost fold_right snd] in HF; fold (cost hsz (firstn p l)) in HF;
      rewrite (evictLoop_ok b l gap bs e R He) by (lia || (unfold cost in *; lia));
      unfold n; cbn [keep]; rewrite FN; f_equal; pose proof (keep_le e l p);
      replace (S p - keep hsz BDS e l p) with (S (p - keep hsz BDS e l p)) by lia;
      rewrite seq_S, rev_app_distr; cbn [rev app]; f_equal; clear; pose proof (keep_le e l p); lia.
  3: destruct (Nat.eqb_spec (length l) 255); [lia|]; apply (evictLoop_ok b l gap bs e R He); [lia|lia|rewrite firstn_all; exact HF].
  all: destruct (Nat.eqb_spec (length l) 255) in HA; try lia.
  all: rewrite HA.
  all: rewrite (evicted_list b l gap bs R) by (apply Forall_forall; intros x Hx; apply in_rev, in_seq in Hx; lia).
  all: rewrite map_rev, map_nth_skip by assumption.
  all: destruct (drop_ok b l gap bs n R KN) as (b' & dist & -> & RR').
  all: rewrite rev_length, seq_length; replace (length l - (length l - n)) with n by lia.
  all: eexists; split; [reflexivity|]; split; [exact RR'|exact KF2].
Qed.
End Ops.
