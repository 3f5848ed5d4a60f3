(** * Buffer and BufferManager: invariant and what each operation does to the live elements. *)
From Verif Require Import Bytes DtBuffer_model.
Ltac Zify.zify_post_hook ::= idtac.
Local Open Scope N_scope.
Local Arguments N.add : simpl never.
Local Arguments N.mul : simpl never.
Local Arguments N.sub : simpl never.
Local Arguments N.of_nat : simpl never.

Ltac consts := change (2 ^ 32) with 4294967296 in *; change (2 ^ 22) with 4194304 in *;
  change (2 ^ 10) with 1024 in *; change maxCapacity with 1048476 in *; change maxItems with 1023 in *; change nullAddr with 4294967295 in *.
Lemma u32_small x : x < 4294967296 -> u32 x = x.
Proof. intro. unfold u32. consts. apply N.mod_small. auto. Qed.

Fixpoint layout (off : N) (l : list (N * slot)) (nxt : N) : Prop :=
  match l with
  | [] => off = nxt
  | (o, s) :: r => o = off /\ 1 <= ssize s /\ layout (off + (4 + ssize s)) r nxt
  end.
Definition asz (x : N * slot) : N := 4 + ssize (snd x).
Definition rsz (x : N * slot) : N := if sremoved (snd x) then asz x else 0.
Lemma layout_sum l : forall off nxt, layout off l nxt -> off + sumN (map asz l) = nxt.
Proof.
  induction l as [ | [o s] l IH]; cbn; intros off nxt L; [ lia | ]. destruct L as (-> & S & L). apply IH in L. unfold asz at 1. unfold sumN in *. cbn [snd]. lia.
Qed.
Lemma layout_in l : forall off nxt o s, layout off l nxt -> In (o, s) l -> off <= o /\ o + 4 + ssize s <= nxt /\ 1 <= ssize s.
Proof.
  induction l as [ | [o' s'] l IH]; cbn; intros off nxt o s L Hin; [ tauto | ]. destruct L as (-> & S & L).
  destruct Hin as [E | Hin].
  - inversion E; subst. apply layout_sum in L. lia.
  - destruct (IH _ _ _ _ L Hin). lia.
Qed.
Lemma layout_nodup l : forall off nxt, layout off l nxt -> NoDup (map fst l).
Proof.
  induction l as [ | [o s] l IH]; cbn; intros off nxt L; constructor; destruct L as (-> & S & L).
  - intro Hin. apply in_map_iff in Hin. destruct Hin as ([o' s'] & E & Hin). cbn in E. subst o'. destruct (layout_in _ _ _ _ _ L Hin). lia.
  - eapply IH; eauto.
Qed.
Lemma layout_fun l off nxt o s s' : layout off l nxt -> In (o, s) l -> In (o, s') l -> s = s'.
Proof.
  intro L. apply layout_nodup in L. induction l as [ | [o1 s1] l IH]; cbn in *; [ tauto | ]. inversion L as [ | ? ? Ni ND]; subst.
  intros [E | A] [E' | B].
  - congruence.
  - inversion E; subst. exfalso. apply Ni. apply in_map_iff. exists (o, s'). auto.
  - inversion E'; subst. exfalso. apply Ni. apply in_map_iff. exists (o, s). auto.
  - auto.
Qed.
Lemma layout_snoc l : forall off nxt s, layout off l nxt -> 1 <= ssize s -> layout off (l ++ [(nxt, s)]) (nxt + (4 + ssize s)).
Proof.
  induction l as [ | [o' s'] l IH]; cbn; intros off nxt s L S; [ subst; auto | ]. destruct L as (-> & S' & L). auto.
Qed.
(** changing one slot *)
Definition sl (l : list (N * slot)) (o0 : N) (f : slot -> slot) : list (N * slot) :=
  map (fun x => if fst x =? o0 then (fst x, f (snd x)) else x) l.
Lemma sl_layout l o0 f : (forall s, ssize (f s) = ssize s) -> forall off nxt, layout off l nxt -> layout off (sl l o0 f) nxt.
Proof.
  intro Hf. induction l as [ | [o s] l IH]; cbn; intros off nxt L; auto. destruct L as (-> & S & L). destruct (N.eqb_spec off o0); cbn; rewrite ?Hf; auto.
Qed.
Lemma sl_in l o0 f o s : In (o, s) (sl l o0 f) <-> (exists s0, o = o0 /\ s = f s0 /\ In (o, s0) l) \/ (o <> o0 /\ In (o, s) l).
Proof.
  unfold sl. rewrite in_map_iff. split.
  - intros ([o1 s1] & E & Hin). cbn in E. destruct (N.eqb_spec o1 o0) as [-> | Ne]; inversion E; subst; [ left; eauto | right; auto ].
  - intros [(s0 & -> & -> & Hin) | [Ne Hin]].
    + exists (o0, s0). cbn. rewrite N.eqb_refl. auto.
    + exists (o, s). cbn. destruct (N.eqb_spec o o0); [ congruence | auto ].
Qed.
Lemma sl_notin l o0 f : ~ In o0 (map fst l) -> sl l o0 f = l.
Proof.
  intro Nn. unfold sl. rewrite <- (map_id l) at 2. apply map_ext_in. intros [o s] Hin. cbn. destruct (N.eqb_spec o o0); auto. subst.
  exfalso. apply Nn. apply in_map_iff. exists (o0, s). auto.
Qed.
Lemma sl_last l o0 s f : ~ In o0 (map fst l) -> sl (l ++ [(o0, s)]) o0 f = l ++ [(o0, f s)].
Proof. intro Nn. rewrite <- (sl_notin l o0 f Nn) at 2. unfold sl. rewrite map_app. cbn. rewrite N.eqb_refl. auto. Qed.
Lemma sl_rsz_remove l o0 s0 : NoDup (map fst l) -> In (o0, s0) l -> sremoved s0 = false ->
  sumN (map rsz (sl l o0 (fun s => mkSlot (ssize s) true (spay s)))) = sumN (map rsz l) + (4 + ssize s0).
Proof.
  intros ND. induction l as [ | [o s] l IH]; intros Hin R; [ destruct Hin | ]. cbn in ND. inversion ND as [ | ? ? Ni ND']; subst.
  cbn [sl map]. cbn [fst]. destruct (N.eqb_spec o o0) as [-> | Ne].
  - assert (s = s0). { destruct Hin as [E | Hin]; [ congruence | ]. exfalso. apply Ni. apply in_map_iff. exists (o0, s0). auto. } subst s0.
    fold (sl l o0 (fun s => mkSlot (ssize s) true (spay s))). rewrite sl_notin by auto. cbn [sumN fold_right]. unfold rsz at 1 3. cbn. rewrite R. unfold asz. cbn. unfold sumN. lia.
  - destruct Hin as [E | Hin]; [ congruence | ]. specialize (IH ND' Hin R). cbn [sumN fold_right map] in *. fold (sl l o0 (fun s => mkSlot (ssize s) true (spay s))). unfold sumN in *. cbn [fold_right]. lia.
Qed.
Lemma sl_rsz_same l o0 f : (forall s, ssize (f s) = ssize s /\ sremoved (f s) = sremoved s) -> map rsz (sl l o0 f) = map rsz l.
Proof.
  intro Hf. unfold sl. rewrite map_map. apply map_ext. intros [o s]. unfold rsz, asz. cbn. destruct (o =? o0); cbn; auto. destruct (Hf s) as [-> ->]. auto.
Qed.

Record binv (b : buffer) (l : list (N * slot)) : Prop := BInv {
  bi_lay : layout 0 l (nextb b); bi_mem : forall o s, In (o, s) l -> mem b o = Some s;
  bi_next : nextb b <= cap b; bi_cap : 1 <= cap b <= maxCapacity; bi_del : deleted b = sumN (map rsz l) }.
Lemma rsz_le l : sumN (map rsz l) <= sumN (map asz l).
Proof. induction l as [ | x l IH]; cbn; [ lia | ]. unfold rsz at 1. unfold sumN in *. destruct (sremoved (snd x)); lia. Qed.
Lemma binv_len b l : binv b l -> N.of_nat (length l) <= nextb b.
Proof.
  intros [L _ _ _ _]. apply layout_sum in L. rewrite <- L. clear. induction l as [ | x l IH]; cbn [length map]; [ lia | ].
  cbn [sumN fold_right]. unfold asz at 1. unfold sumN in *. lia.
Qed.
Lemma allocSize_small size : size < 4294967292 -> allocSize size = 4 + size.
Proof. intro. unfold allocSize. apply u32_small. lia. Qed.

Lemma bAllocate_ok b l size : binv b l -> 1 <= size -> 4 + size <= remaining b ->
  exists b', bAllocate b size = Some (b', nextb b + 4) /\ binv b' (l ++ [(nextb b, mkSlot size false None)]) /\ cap b' = cap b /\
             deleted b' = deleted b /\ nextb b' = nextb b + (4 + size).
Proof.
  intros [L M Nx C D] S R. unfold remaining in R. unfold bAllocate, newSlot. consts.
  rewrite (u32_small (4 + size)) by lia. rewrite (u32_small (nextb b + (4 + size))) by lia.
  destruct (N.ltb_spec (cap b) (nextb b + (4 + size))); [ lia | ].
  rewrite (N.mod_small size) by lia. cbn [ssize]. rewrite allocSize_small by lia. rewrite (u32_small (nextb b + (4 + size))) by lia.
  eexists. split; [ reflexivity | ]. cbn [cap deleted nextb]. split; [ | auto ]. constructor; cbn [cap deleted nextb mem]; consts; try lia.
  - apply (layout_snoc l 0 (nextb b) (mkSlot size false None)); auto.
  - intros o s Hin. apply in_app_iff in Hin. unfold updm. destruct Hin as [Hin | [E | []]].
    + destruct (layout_in _ _ _ _ _ L Hin) as (_ & ? & _). destruct (N.eqb_spec o (nextb b)); [ lia | auto ].
    + inversion E; subst. rewrite N.eqb_refl. auto.
  - rewrite map_app, D. cbn. unfold sumN. rewrite fold_right_app. cbn. auto.
Qed.
Lemma canAllocate_ok b size : size < 4294967292 -> canAllocateNow b size = true <-> 4 + size <= remaining b.
Proof. intro. unfold canAllocateNow. rewrite allocSize_small by auto. rewrite N.leb_le. tauto. Qed.

Lemma sl_binv b l o s f : binv b l -> In (o, s) l -> (forall s, ssize (f s) = ssize s) ->
  forall d, d = sumN (map rsz (sl l o f)) -> binv (mkBuf (cap b) d (nextb b) (updm (mem b) o (Some (f s)))) (sl l o f).
Proof.
  intros [L M Nx C D] Hin Hf d Hd. constructor; cbn [cap deleted nextb mem]; auto.
  - apply sl_layout; auto.
  - intros o' s' Hin'. apply sl_in in Hin'. unfold updm. destruct Hin' as [(s0 & -> & -> & H0) | [Ne H0]].
    + rewrite N.eqb_refl. rewrite (layout_fun _ _ _ _ _ _ L Hin H0). auto.
    + destruct (N.eqb_spec o' o); [ congruence | auto ].
Qed.
Lemma bWrite_ok b l o s size p : binv b l -> In (o, s) l -> size <= ssize s ->
  exists b', bWrite b (o + 4) size p = Some b' /\ binv b' (sl l o (fun s => mkSlot (ssize s) (sremoved s) (Some p))) /\ cap b' = cap b /\ nextb b' = nextb b.
Proof.
  intros B Hin S. unfold bWrite. replace (o + 4 - 4) with o by lia. rewrite (bi_mem _ _ B _ _ Hin).
  destruct (N.ltb_spec (ssize s) size); [ lia | ]. eexists. split; [ reflexivity | ]. split; [ | auto ].
  apply (sl_binv b l o s (fun s => mkSlot (ssize s) (sremoved s) (Some p))); auto. rewrite sl_rsz_same; [ apply B | ]. auto.
Qed.
Lemma getSlot_ok b l o s : binv b l -> In (o, s) l -> getSlot b (o + 4) = Some s.
Proof.
  intros [L M Nx C D] Hin. unfold getSlot. destruct (layout_in _ _ _ _ _ L Hin) as (? & ? & ?).
  destruct (N.leb_spec (nextb b) (o + 4)); [ lia | ]. destruct (N.ltb_spec (o + 4) 4); [ lia | ]. cbn. replace (o + 4 - 4) with o by lia. auto.
Qed.
Lemma bRemove_ok b l o s : binv b l -> In (o, s) l -> sremoved s = false ->
  exists b', bRemove b (o + 4) = Some b' /\ binv b' (sl l o (fun s => mkSlot (ssize s) true (spay s))) /\ cap b' = cap b.
Proof.
  intros B Hin R. unfold bRemove. rewrite (getSlot_ok b l o s) by auto. rewrite R. pose proof B as [L M Nx C D].
  destruct (layout_in _ _ _ _ _ L Hin) as (? & ? & ?). replace (o + 4 - 4) with o by lia.
  eexists. split; [ reflexivity | ]. split; [ | auto ]. consts.
  pose proof (sl_rsz_remove l o s (layout_nodup _ _ _ L) Hin R) as E.
  assert (sumN (map rsz (sl l o (fun s => mkSlot (ssize s) true (spay s)))) <= nextb b).
  { pose proof (rsz_le (sl l o (fun s => mkSlot (ssize s) true (spay s)))).
    assert (L2 : layout 0 (sl l o (fun s => mkSlot (ssize s) true (spay s))) (nextb b)) by (apply sl_layout; auto).
    apply layout_sum in L2. lia. }
  apply (sl_binv b l o s (fun s => mkSlot (ssize s) true (spay s))); auto.
  rewrite allocSize_small by lia. rewrite u32_small; lia.
Qed.
Lemma copyBuffer_ok b l c : binv b l -> nextb b <= c -> 1 <= c <= maxCapacity -> binv (copyBuffer c b) l.
Proof.
  intros [L M Nx C D] H1 H2. constructor; cbn [copyBuffer cap deleted nextb mem]; auto.
  intros o s Hin. destruct (layout_in _ _ _ _ _ L Hin) as (? & ? & ?). destruct (N.ltb_spec o (nextb b)); [ auto | lia ].
Qed.
Lemma newBuffer_ok c : 1 <= c <= maxCapacity -> binv (newBuffer c) [].
Proof. intro. constructor; cbn; auto; try lia; try tauto. Qed.

(** ** compact *)
Definition keepS (x : N * slot) : bool := negb (sremoved (snd x)).
Definition full (l : list (N * slot)) : Prop := forall o s, In (o, s) l -> sremoved s = false -> spay s <> None.
Lemma compactFrom_ok : forall r l b dest ld fuel, binv b l -> binv dest ld ->
  (exists pre, l = pre ++ r /\ layout 0 pre (nextb b - sumN (map asz r))) -> full r ->
  nextb dest + sumN (map asz r) <= cap dest -> (length r < fuel)%nat -> deleted dest = 0 ->
  exists d' r', compactFrom fuel b dest (nextb b - sumN (map asz r)) = Some d' /\ binv d' (ld ++ r') /\ cap d' = cap dest /\
    map snd r' = map snd (filter keepS r) /\ deleted d' = 0 /\ nextb d' <= cap d'.
Proof.
  induction r as [ | [o s] r IH]; intros l b dest ld fuel B Bd (pre & El & Lp) F Room Lf Dd.
  - exists dest, []. cbn [map filter]. rewrite app_nil_r. destruct fuel; [ cbn in Lf; lia | ]. cbn [compactFrom map sumN fold_right].
    replace (nextb b - 0) with (nextb b) by lia. rewrite N.ltb_irrefl. split; auto. split; auto. split; auto. split; auto. split; auto. apply Bd.
  - destruct fuel as [ | fuel]; [ cbn in Lf; lia | ]. cbn [compactFrom].
    pose proof B as [L M Nx C D]. pose proof (layout_sum _ _ _ L) as E. subst l. rewrite map_app in E. unfold sumN in E. rewrite fold_right_app in E.
    assert (Hin : In (o, s) (pre ++ (o, s) :: r)) by (apply in_app_iff; right; left; auto).
    assert (Eo : nextb b - sumN (map asz ((o, s) :: r)) = o /\ nextb b = o + (4 + ssize s) + sumN (map asz r)).
    { clear - L. assert (G : forall pre off, layout off (pre ++ (o, s) :: r) (nextb b) -> nextb b = o + (4 + ssize s) + sumN (map asz r)).
      { intro pre'. induction pre' as [ | [o1 s1] pre' IHp]; cbn; intros off A; destruct A as (-> & ? & A); [ | eapply IHp; eauto ].
        apply layout_sum in A. auto. }
      specialize (G _ _ L). cbn [map sumN fold_right]. unfold asz at 1. cbn. unfold sumN in *. split; [ | auto ]. lia. }
    destruct Eo as [Eo En]. rewrite Eo in *. consts.
    destruct (layout_in _ _ _ _ _ L Hin) as (? & Le & Ls).
    destruct (N.ltb_spec o (nextb b)); [ | lia ]. rewrite (M _ _ Hin). rewrite allocSize_small by lia. rewrite (u32_small (o + (4 + ssize s))) by lia.
    assert (Pre' : exists pre0, pre ++ (o, s) :: r = pre0 ++ r /\ layout 0 pre0 (nextb b - sumN (map asz r))).
    { exists (pre ++ [(o, s)]). rewrite <- app_assoc. split; auto. replace (nextb b - sumN (map asz r)) with (o + (4 + ssize s)) by lia.
      apply (layout_snoc pre 0 o s); auto. }
    assert (F' : full r) by (intros o1 s1 H1; apply (F o1 s1); right; auto).
    cbn [map sumN fold_right] in Room. unfold asz at 1 in Room. cbn [snd] in Room. fold (sumN (map asz r)) in Room.
    cbn [filter]. unfold keepS at 1. cbn [snd]. destruct (sremoved s) eqn:Rm; cbn [negb].
    + destruct (IH _ b dest ld fuel B Bd Pre' F') as (d' & r' & E1 & E2); [ lia | cbn in Lf; lia | auto | ].
      replace (nextb b - sumN (map asz r)) with (o + (4 + ssize s)) in E1 by lia. exists d', r'. auto.
    + destruct (bAllocate_ok dest ld (ssize s) Bd Ls) as (d1 & A1 & B1 & C1 & D1 & N1); [ unfold remaining; lia | ]. rewrite A1.
      destruct (spay s) as [p | ] eqn:Ep; [ | exfalso; eapply (F o s); eauto; left; auto ].
      destruct (bWrite_ok d1 _ (nextb dest) (mkSlot (ssize s) false None) (ssize s) p B1) as (d2 & A2 & B2 & C2 & N2).
      { apply in_app_iff. right. left. auto. } { cbn. lia. }
      rewrite A2.
      assert (D2 : deleted d2 = 0).
      { rewrite (bi_del _ _ B2). rewrite sl_rsz_same by auto. rewrite <- (bi_del _ _ B1). congruence. }
      assert (Es : sl (ld ++ [(nextb dest, mkSlot (ssize s) false None)]) (nextb dest) (fun s0 => mkSlot (ssize s0) (sremoved s0) (Some p)) =
                   ld ++ [(nextb dest, mkSlot (ssize s) false (Some p))]).
      { rewrite sl_last; auto. intro Hn. apply in_map_iff in Hn.
        destruct Hn as ([o1 s1] & E1 & H1). cbn in E1. subst o1. destruct (layout_in _ _ _ _ _ (bi_lay _ _ Bd) H1). lia. }
      rewrite Es in B2.
      destruct (IH _ b d2 _ fuel B B2 Pre' F') as (d' & r' & E1 & E2 & E3 & E4 & E5 & E6); [ rewrite N2, C2, N1, C1; lia | cbn in Lf; lia | auto | ].
      replace (nextb b - sumN (map asz r)) with (o + (4 + ssize s)) in E1 by lia.
      exists d', ((nextb dest, mkSlot (ssize s) false (Some p)) :: r'). split; auto. rewrite <- app_assoc in E2. cbn in E2. split; auto.
      split; [ congruence | ]. cbn [map snd]. rewrite E4. split; auto. f_equal. destruct s; cbn in *. subst. auto.
Qed.
Lemma del0_keep b l : binv b l -> deleted b = 0 -> filter keepS l = l.
Proof.
  intros [L M Nx C D] E. rewrite D in E. clear - E. induction l as [ | x l IH]; auto. cbn [map sumN fold_right] in E.
  cbn [filter]. unfold rsz at 1, asz in E. unfold keepS at 1. destruct (sremoved (snd x)); cbn.
  - lia.
  - rewrite IH; auto.
Qed.
Lemma compactBuffer_ok b l : binv b l -> full l ->
  exists b' l', compactBuffer b = Some b' /\ binv b' l' /\ cap b' = cap b /\ map snd l' = map snd (filter keepS l) /\ full l'.
Proof.
  intros B F. unfold compactBuffer. destruct (N.eqb_spec (deleted b) 0) as [E | E].
  - exists b, l. rewrite (del0_keep b l) by auto. auto.
  - cbn [newBuffer cap]. destruct (N.ltb_spec (cap b) (cap b - deleted b - remaining b)); [ lia | ].
    pose proof B as [L M Nx C D]. pose proof (layout_sum _ _ _ L) as Es.
    destruct (compactFrom_ok l l b (newBuffer (cap b)) [] (S (N.to_nat (nextb b))) B (newBuffer_ok _ C)) as (d' & r' & E1 & E2 & E3 & E4 & E5 & E6); auto.
    + exists []. split; auto. cbn. lia.
    + cbn. lia.
    + pose proof (binv_len b l B). lia.
    + replace (nextb b - sumN (map asz l)) with 0 in E1 by lia. rewrite E1. cbn [app] in E2.
      exists (copyBuffer (cap d') d'), r'. split; auto. split; [ apply copyBuffer_ok; auto; rewrite E3; cbn; auto | ]. split; [ cbn; rewrite E3; auto | ].
      split; auto. intros o s Hin Rm.
      assert (Hs : In s (map snd r')) by (apply in_map_iff; exists (o, s); auto). rewrite E4 in Hs. apply in_map_iff in Hs.
      destruct Hs as ([o1 s1] & E7 & Hs). cbn in E7. subst s1. apply filter_In in Hs. destruct Hs as [Hs _]. eapply F; eauto.
Qed.

(** ** walking *)
Lemma slotsFrom_ok : forall r b l fuel, binv b l -> (exists pre, l = pre ++ r) -> r <> [] -> (length r <= fuel)%nat ->
  slotsFrom fuel b (nextb b - sumN (map asz r) + 4) = Some (map (fun x => (fst x + 4, snd x)) r).
Proof.
  induction r as [ | [o s] r IH]; intros b l fuel B (pre & El) N Lf; [ congruence | ].
  destruct fuel as [ | fuel]; [ cbn in Lf; lia | ]. cbn [slotsFrom]. pose proof B as [L M Nx C D]. subst l.
  assert (Hin : In (o, s) (pre ++ (o, s) :: r)) by (apply in_app_iff; right; left; auto).
  assert (Eo : nextb b - sumN (map asz ((o, s) :: r)) = o /\ nextb b = o + (4 + ssize s) + sumN (map asz r)).
  { clear - L. assert (G : forall pre off, layout off (pre ++ (o, s) :: r) (nextb b) -> nextb b = o + (4 + ssize s) + sumN (map asz r)).
    { intro pre'. induction pre' as [ | [o1 s1] pre' IHp]; cbn; intros off A; destruct A as (-> & ? & A); [ | eapply IHp; eauto ].
      apply layout_sum in A. auto. }
    specialize (G _ _ L). cbn [map sumN fold_right]. unfold asz at 1. cbn. unfold sumN in *. split; [ | auto ]. lia. }
  destruct Eo as [Eo En]. rewrite Eo. rewrite (getSlot_ok b _ o s B Hin). consts. destruct (layout_in _ _ _ _ _ L Hin) as (? & Le & Ls).
  rewrite allocSize_small by lia. rewrite u32_small by lia. destruct r as [ | [o1 s1] r].
  - cbn [map sumN fold_right] in En. destruct (N.leb_spec (nextb b) (o + 4 + (4 + ssize s))); [ reflexivity | lia ].
  - assert (Hin1 : In (o1, s1) (pre ++ (o, s) :: (o1, s1) :: r)) by (apply in_app_iff; right; right; left; auto).
    destruct (layout_in _ _ _ _ _ L Hin1) as (? & Le1 & Ls1).
    assert (E1 : nextb b - sumN (map asz ((o1, s1) :: r)) + 4 = o + 4 + (4 + ssize s)) by lia.
    assert (5 <= sumN (map asz ((o1, s1) :: r))). { cbn [map sumN fold_right]. unfold asz at 1. cbn [snd]. lia. }
    destruct (N.leb_spec (nextb b) (o + 4 + (4 + ssize s))); [ lia | ].
    rewrite <- E1. erewrite IH; eauto; [ exists (pre ++ [(o, s)]); rewrite <- app_assoc; auto | discriminate | cbn in Lf |- *; lia ].
Qed.
Lemma bSlots_ok b l : binv b l -> bSlots b = Some (map (fun x => (fst x + 4, snd x)) l).
Proof.
  intro B. unfold bSlots. rewrite allocSize_small by lia. pose proof B as [L M Nx C D]. pose proof (layout_sum _ _ _ L) as Es.
  destruct (N.ltb_spec (nextb b) (4 + 0)).
  - destruct l as [ | x l]; [ auto | ]. cbn [map sumN fold_right] in Es. unfold asz at 1 in Es. lia.
  - destruct l as [ | x l]; [ cbn in Es; lia | ].
    pose proof (slotsFrom_ok (x :: l) b (x :: l) (S (N.to_nat (nextb b))) B) as G.
    replace (nextb b - sumN (map asz (x :: l)) + 4) with (4 + 0) in G by lia. apply G.
    + exists []. auto.
    + discriminate.
    + pose proof (binv_len b _ B). lia.
Qed.

(** ** the manager *)
Definition lvb (i : N) (l : list (N * slot)) : list (N * (N * N)) :=
  flat_map (fun x => if sremoved (snd x) then [] else match spay (snd x) with Some p => [(compress i (fst x + 4), p)] | None => [] end) l.
Fixpoint lv (ls : list (list (N * slot))) (i : N) : list (N * (N * N)) :=
  match ls with [] => [] | l :: r => lv r (i + 1) ++ lvb i l end.
Record minv (m : mgr) (ls : list (list (N * slot))) : Prop := MInv {
  mi_b : Forall2 binv m ls; mi_full : Forall full ls; mi_len : N.of_nat (length m) <= maxItems; mi_ne : m <> [] }.

Lemma compress_small i o : i < 1023 -> o <= 1048476 -> compress i o = i * 4194304 + o.
Proof. intros. unfold compress. consts. apply u32_small. lia. Qed.
Lemma compress_parts i o : i < 1023 -> o <= 1048476 -> itemOff (compress i o) = i /\ byteOff (compress i o) = o /\ compress i o <> nullAddr.
Proof.
  intros A B. rewrite compress_small by auto. unfold itemOff, byteOff. consts. split; [ | split ].
  - symmetry. apply (N.div_unique _ _ _ o); lia.
  - symmetry. apply (N.mod_unique _ _ i o); lia.
  - lia.
Qed.
Lemma in_lvb i l a p : In (a, p) (lvb i l) <-> exists o s, In (o, s) l /\ sremoved s = false /\ spay s = Some p /\ a = compress i (o + 4).
Proof.
  unfold lvb. rewrite in_flat_map. split.
  - intros ([o s] & Hin & H). cbn in H. destruct (sremoved s) eqn:R; [ destruct H | ]. destruct (spay s) eqn:E; [ | destruct H ].
    destruct H as [H | []]. inversion H; subst. eauto 7.
  - intros (o & s & Hin & R & E & ->). exists (o, s). split; auto. cbn. rewrite R, E. left. auto.
Qed.
Lemma in_lv ls : forall i a p, In (a, p) (lv ls i) <->
  exists j l o s, nth_error ls j = Some l /\ In (o, s) l /\ sremoved s = false /\ spay s = Some p /\ a = compress (i + N.of_nat j) (o + 4).
Proof.
  induction ls as [ | l ls IH]; intros i a p; cbn [lv].
  - split; [ intros [] | ]. intros (j & l & o & s & E & _). destruct j; discriminate.
  - rewrite in_app_iff, IH, in_lvb. split.
    + intros [(j & l' & o & s & E & H) | (o & s & H1 & H2 & H3 & H4)].
      * exists (S j), l', o, s. cbn. replace (i + N.of_nat (S j)) with (i + 1 + N.of_nat j) by lia. auto.
      * exists O, l, o, s. cbn [nth_error]. replace (i + N.of_nat 0) with i by lia. auto 6.
    + intros (j & l' & o & s & E & H). destruct j as [ | j]; cbn in E.
      * inversion E; subst. right. exists o, s. replace (i + N.of_nat 0) with i in H by lia. auto.
      * left. exists j, l', o, s. replace (i + 1 + N.of_nat j) with (i + N.of_nat (S j)) by lia. auto.
Qed.
Lemma Forall2_nth {A B} (P : A -> B -> Prop) l1 l2 j b : Forall2 P l1 l2 -> nth_error l2 j = Some b -> exists a, nth_error l1 j = Some a /\ P a b.
Proof.
  intro F. revert j. induction F; intros j E; destruct j; cbn in *; try discriminate; eauto. inversion E; subst. eauto.
Qed.
Lemma Forall2_nth' {A B} (P : A -> B -> Prop) l1 l2 j a : Forall2 P l1 l2 -> nth_error l1 j = Some a -> exists b, nth_error l2 j = Some b /\ P a b.
Proof.
  intro F. revert j. induction F; intros j E; destruct j; cbn in *; try discriminate; eauto. inversion E; subst. eauto.
Qed.
Lemma binv_off b l o s : binv b l -> In (o, s) l -> o + 4 <= 1048476.
Proof. intros [L M Nx C D] Hin. destruct (layout_in _ _ _ _ _ L Hin) as (? & ? & ?). consts. lia. Qed.
Lemma minv_idx m ls j l : minv m ls -> nth_error ls j = Some l -> N.of_nat j < 1023 /\ exists b, nth_error m j = Some b /\ binv b l.
Proof.
  intros [F _ Le _] E. consts. destruct (Forall2_nth _ _ _ _ _ F E) as (b & Eb & B). split; eauto.
  assert (j < length m)%nat by (apply nth_error_Some; congruence). lia.
Qed.
Lemma in_lv0 m ls a p : minv m ls -> In (a, p) (lv ls 0) -> exists j l o s b, nth_error ls j = Some l /\ In (o, s) l /\ sremoved s = false /\ spay s = Some p /\
  itemOff a = N.of_nat j /\ byteOff a = o + 4 /\ nth_error m j = Some b /\ binv b l /\ a <> nullAddr /\ a = compress (N.of_nat j) (o + 4).
Proof.
  intros I Hin. apply in_lv in Hin. destruct Hin as (j & l & o & s & E & H1 & H2 & H3 & H4). rewrite N.add_0_l in H4. destruct (minv_idx _ _ _ _ I E) as (Lj & b & Eb & B).
  destruct (compress_parts (N.of_nat j) (o + 4) Lj (binv_off _ _ _ _ B H1)) as (C1 & C2 & C3). rewrite <- H4 in *. exists j, l, o, s, b. auto 12.
Qed.
Lemma mRead_ok m ls a p : minv m ls -> In (a, p) (lv ls 0) -> mRead m a = Some p.
Proof.
  intros I Hin. destruct (in_lv0 _ _ _ _ I Hin) as (j & l & o & s & b & E & H1 & H2 & H3 & C1 & C2 & Eb & B & _).
  unfold mRead, getBuffer. rewrite C1, C2, Nat2N.id, Eb. unfold bRead. replace (o + 4 - 4) with o by lia. rewrite (bi_mem _ _ B _ _ H1). auto.
Qed.
Fixpoint setNth {A} (l : list A) (i : nat) (x : A) : list A :=
  match l, i with [], _ => [] | _ :: r, O => x :: r | y :: r, S j => y :: setNth r j x end.
Lemma setBuffer_nth m i b : setBuffer m i b = setNth m i b.
Proof. revert i; induction m; destruct i; cbn; congruence. Qed.
Lemma setNth_len {A} (l : list A) i x : length (setNth l i x) = length l.
Proof. revert i; induction l; destruct i; cbn; auto. Qed.
Lemma nth_setNth {A} (l : list A) i x j : nth_error (setNth l i x) j = if Nat.eqb j i then (match nth_error l i with Some _ => Some x | None => None end) else nth_error l j.
Proof.
  revert i j. induction l as [ | y l IH]; intros i j; destruct i, j; cbn; auto. destruct (Nat.eqb j i); auto.
Qed.
Lemma Forall2_setNth {A B} (P : A -> B -> Prop) l1 l2 i a b : Forall2 P l1 l2 -> P a b -> Forall2 P (setNth l1 i a) (setNth l2 i b).
Proof. intros F Hp. revert i. induction F; destruct i; cbn; auto. Qed.
Lemma Forall_setNth {A} (P : A -> Prop) l i a : Forall P l -> P a -> Forall P (setNth l i a).
Proof. intros F Hp. revert i. induction F; destruct i; cbn; auto. Qed.
Lemma setNth_twice {A} (l : list A) i x y : setNth (setNth l i x) i y = setNth l i y.
Proof. revert i; induction l; destruct i; cbn; congruence. Qed.
Lemma setNth_ne {A} (l : list A) i x : l <> [] -> setNth l i x <> [].
Proof. destruct l, i; cbn; congruence. Qed.
Lemma full_nth ls j l : Forall full ls -> nth_error ls j = Some l -> full l.
Proof. intros F E. rewrite Forall_forall in F. apply F. eapply nth_error_In; eauto. Qed.

Lemma mRemove_ok m ls a p : minv m ls -> In (a, p) (lv ls 0) ->
  exists m' ls', mRemove m a = Some m' /\ minv m' ls' /\ length m' = length m /\
    (forall a' p', In (a', p') (lv ls' 0) <-> In (a', p') (lv ls 0) /\ a' <> a).
Proof.
  intros I Hin. destruct (in_lv0 _ _ _ _ I Hin) as (j & l & o & s & b & E & H1 & H2 & H3 & C1 & C2 & Eb & B & Na & Ea).
  unfold mRemove, getBuffer. rewrite C1, C2, Nat2N.id, Eb. destruct (bRemove_ok b l o s B H1 H2) as (b' & E' & B' & Cb). rewrite E'. rewrite setBuffer_nth.
  set (l' := sl l o (fun s => mkSlot (ssize s) true (spay s))) in *.
  pose proof I as [F Fu Le Ne].
  exists (setNth m j b'), (setNth ls j l'). split; auto. split; [ | split; [ apply setNth_len | ] ].
  - constructor.
    + apply Forall2_setNth; auto.
    + apply Forall_setNth; auto. intros o1 s1 Hi1 R1. apply sl_in in Hi1. destruct Hi1 as [(s0 & -> & -> & Hi1) | (N1 & Hi1)]; [ discriminate | ].
      eapply (full_nth _ _ _ Fu E); eauto.
    + rewrite setNth_len. auto.
    + apply setNth_ne; auto.
  - pose proof (binv_off _ _ _ _ B H1) as Bo. destruct (minv_idx _ _ _ _ I E) as (Lj & _).
    intros a' p'. rewrite !in_lv. split.
    + intros (j1 & l1 & o1 & s1 & E1 & Hi1 & R1 & P1 & A1). rewrite nth_setNth in E1. destruct (Nat.eqb_spec j1 j) as [-> | Nj].
      * rewrite E in E1. inversion E1; subst l1. apply sl_in in Hi1. destruct Hi1 as [(s0 & -> & -> & Hi1) | (N1 & Hi1)]; [ discriminate | ].
        split; [ exists j, l, o1, s1; auto 6 | ]. rewrite A1, Ea. rewrite ?N.add_0_l. pose proof (binv_off _ _ _ _ B Hi1). rewrite !compress_small by lia. lia.
      * split; [ exists j1, l1, o1, s1; auto 6 | ]. destruct (minv_idx _ _ _ _ I E1) as (Lj1 & b1 & Eb1 & B1). pose proof (binv_off _ _ _ _ B1 Hi1).
        rewrite A1, Ea. rewrite ?N.add_0_l. rewrite !compress_small by lia. lia.
    + intros ((j1 & l1 & o1 & s1 & E1 & Hi1 & R1 & P1 & A1) & Nea).
      destruct (Nat.eq_dec j1 j) as [-> | Nj].
      * exists j, l', o1, s1. rewrite nth_setNth, Nat.eqb_refl, E. rewrite E in E1. inversion E1; subst l1. split; auto. split; auto.
        apply sl_in. right. split; auto. intro; subst o1. apply Nea. rewrite A1, Ea. auto.
      * exists j1, l1, o1, s1. rewrite nth_setNth. destruct (Nat.eqb_spec j1 j); [ congruence | auto 6 ].
Qed.

Lemma allocIn_ok size : 1 <= size -> size < 4294967292 -> forall m ls i, Forall2 binv m ls ->
  match allocIn m i size with
  | None => forall b, In b m -> canAllocateNow b size = false
  | Some (m', a) => exists j l b b', nth_error ls j = Some l /\ nth_error m j = Some b /\ m' = setNth m j b' /\ binv b l /\
      binv b' (l ++ [(nextb b, mkSlot size false None)]) /\ a = compress (i + N.of_nat j) (nextb b + 4) /\ layout 0 l (nextb b)
  end.
Proof.
  intros S1 S2 m ls i F. revert i. induction F as [ | b l m ls B F IH]; intro i; cbn [allocIn]; [ intros b [] | ].
  destruct (canAllocateNow b size) eqn:C.
  - apply canAllocate_ok in C; auto. destruct (bAllocate_ok b l size B S1 C) as (b' & E & B' & _). rewrite E.
    exists O, l, b, b'. cbn [nth_error setNth]. replace (i + N.of_nat 0) with i by lia. split; auto. split; auto. split; auto. split; auto. split; auto. split; auto. apply B.
  - specialize (IH (i + 1)). destruct (allocIn m (i + 1) size) as [[m' a] | ].
    + destruct IH as (j & l1 & b1 & b' & H1 & H2 & -> & H3 & H4 & H5 & H6). exists (S j), l1, b1, b'. cbn [nth_error setNth].
      replace (i + N.of_nat (S j)) with (i + 1 + N.of_nat j) by lia. auto 10.
    + intros b1 [<- | Hin]; auto.
Qed.
Lemma alloc_write m ls size p m' a : minv m ls -> 1 <= size -> size < 4294967292 -> mAllocate m size = Some (m', a) ->
  exists m'' ls'', mWrite m' a size p = Some m'' /\ minv m'' ls'' /\ length m'' = length m /\ a <> nullAddr /\
    (forall a' p', In (a', p') (lv ls'' 0) <-> In (a', p') (lv ls 0) \/ (a' = a /\ p' = p)) /\ (forall p', ~ In (a, p') (lv ls 0)).
Proof.
  intros I S1 S2. unfold mAllocate. destruct (maxCapacity <=? allocSize size); [ discriminate | ]. intro E.
  pose proof I as [F Fu Le Ne]. pose proof (allocIn_ok size S1 S2 m ls 0 F) as A. rewrite E in A.
  destruct A as (j & l & b & b' & El & Eb & -> & B & B' & -> & L). rewrite ?N.add_0_l.
  destruct (minv_idx _ _ _ _ I El) as (Lj & _).
  assert (Hin : In (nextb b, mkSlot size false None) (l ++ [(nextb b, mkSlot size false None)])) by (apply in_app_iff; right; left; auto).
  pose proof (binv_off _ _ _ _ B' Hin) as Bo.
  destruct (compress_parts (N.of_nat j) (nextb b + 4) Lj Bo) as (C1 & C2 & C3).
  unfold mWrite, getBuffer. rewrite C1, C2, Nat2N.id, nth_setNth, Nat.eqb_refl, Eb.
  destruct (bWrite_ok b' _ (nextb b) _ size p B' Hin) as (b2 & E2 & B2 & _); [ cbn; lia | ]. rewrite E2, setBuffer_nth, setNth_twice.
  assert (Es : sl (l ++ [(nextb b, mkSlot size false None)]) (nextb b) (fun s0 => mkSlot (ssize s0) (sremoved s0) (Some p)) =
               l ++ [(nextb b, mkSlot size false (Some p))]).
  { rewrite sl_last; auto. intro Hn. apply in_map_iff in Hn.
    destruct Hn as ([o1 s1] & E1 & H1). cbn in E1. subst o1. destruct (layout_in _ _ _ _ _ L H1). lia. }
  rewrite Es in B2. set (l2 := l ++ [(nextb b, mkSlot size false (Some p))]) in *.
  exists (setNth m j b2), (setNth ls j l2). split; auto. split; [ | split; [ apply setNth_len | split; [ auto | split ] ] ].
  - constructor.
    + apply Forall2_setNth; auto.
    + apply Forall_setNth; auto. intros o1 s1 Hi1 R1. apply in_app_iff in Hi1. destruct Hi1 as [Hi1 | [Ei | []]].
      * eapply (full_nth _ _ _ Fu El); eauto.
      * inversion Ei; subst. discriminate.
    + rewrite setNth_len. auto.
    + apply setNth_ne; auto.
  - intros a' p'. rewrite !in_lv. split.
    + intros (j1 & l1 & o1 & s1 & E1 & Hi1 & R1 & P1 & A1). rewrite nth_setNth in E1. destruct (Nat.eqb_spec j1 j) as [-> | Nj].
      * rewrite El in E1. inversion E1; subst l1. apply in_app_iff in Hi1. destruct Hi1 as [Hi1 | [Ei | []]].
        -- left. exists j, l, o1, s1. auto 6.
        -- inversion Ei; subst. right. cbn in *. split; auto. congruence.
      * left. exists j1, l1, o1, s1. auto 6.
    + intros [(j1 & l1 & o1 & s1 & E1 & Hi1 & R1 & P1 & A1) | [-> ->]].
      * destruct (Nat.eq_dec j1 j) as [-> | Nj].
        -- exists j, l2, o1, s1. rewrite nth_setNth, Nat.eqb_refl, El. rewrite El in E1. inversion E1; subst l1. split; auto. split; auto. apply in_app_iff. auto.
        -- exists j1, l1, o1, s1. rewrite nth_setNth. destruct (Nat.eqb_spec j1 j); [ congruence | auto 6 ].
      * exists j, l2, (nextb b), (mkSlot size false (Some p)). rewrite nth_setNth, Nat.eqb_refl, El. split; auto. split; [ apply in_app_iff; right; left; auto | ]. auto.
  - intros p' Hin'. destruct (in_lv0 _ _ _ _ I Hin') as (j1 & l1 & o1 & s1 & b1 & E1 & Hi1 & _ & _ & D1 & D2 & _).
    assert (j1 = j) by lia. subst j1. rewrite El in E1. inversion E1; subst l1. destruct (layout_in _ _ _ _ _ L Hi1). lia.
Qed.
Lemma mAllocate_none m ls size : minv m ls -> 1 <= size -> size < 4294967292 -> 4 + size < maxCapacity -> mAllocate m size = None ->
  forall b, In b m -> canAllocateNow b size = false.
Proof.
  intros [F _ _ _] S1 S2 S3. unfold mAllocate. rewrite allocSize_small by auto. destruct (N.leb_spec maxCapacity (4 + size)); [ lia | ].
  intros E. pose proof (allocIn_ok size S1 S2 m ls 0 F) as A. rewrite E in A. auto.
Qed.

(** ** expand *)
Lemma lv_app1 ls i : lv (ls ++ [[]]) i = lv ls i.
Proof. revert i. induction ls as [ | l ls IH]; intro i; cbn; auto. rewrite IH. auto. Qed.
Lemma expandBuffer_ok m ls extra al : minv m ls -> extra <= maxCapacity ->
  match expandBuffer m extra al with
  | (Some m', _) => minv m' ls /\ length m' = length m /\ (exists b, In b m' /\ extra <= remaining b)
  | (None, _) => True
  end.
Proof.
  intros [F Fu Le Ne] X. unfold expandBuffer. destruct (rev m) as [ | b r] eqn:Er; auto.
  assert (Em : m = rev r ++ [b]) by (rewrite <- (rev_involutive m), Er; auto).
  destruct (N.leb_spec maxCapacity (u32 (cap b + extra))) as [Lm | Lm]; auto. destruct (take al) as [[ | ] al1]; auto.
  subst m. apply Forall2_app_inv_l in F. destruct F as (l1 & l2 & F1 & F2 & ->). inversion F2 as [ | ? l ? ? B F3]; subst. inversion F3; subst.
  pose proof B as [L M Nx C D]. consts. rewrite (u32_small (cap b + extra)) in * by lia. rewrite (u32_small (cap b * 2)) by lia.
  split; [ | split ].
  - constructor; auto.
    + apply Forall2_app; auto. constructor; auto. apply copyBuffer_ok; auto; consts; lia.
    + rewrite app_length in *. cbn in *. consts. lia.
    + intro E. apply app_eq_nil in E. destruct E as [_ E]. discriminate.
  - rewrite !app_length. auto.
  - eexists. split; [ apply in_app_iff; right; left; reflexivity | ]. unfold remaining. cbn [copyBuffer cap nextb]. lia.
Qed.
Lemma mExpand_ok m ls size al : minv m ls -> size < 4294967292 ->
  match mExpand m size al with
  | (Some m', _) => exists ls', minv m' ls' /\ lv ls' 0 = lv ls 0 /\ (length m' <= S (length m))%nat /\ exists b, In b m' /\ canAllocateNow b size = true
  | (None, _) => True
  end.
Proof.
  intros I S2. unfold mExpand. rewrite allocSize_small by auto. destruct (N.ltb_spec maxCapacity (4 + size)) as [Lm | Lm]; auto.
  pose proof (expandBuffer_ok m ls (4 + size) al I Lm) as X. destruct (expandBuffer m (4 + size) al) as [[m' | ] al1].
  - destruct X as (I' & Len & b & Hb & R). exists ls. split; auto. split; auto. split; [ lia | ]. exists b. split; auto. apply canAllocate_ok; auto.
  - destruct (N.leb_spec maxItems (N.of_nat (length m))) as [Li | Li]; auto. unfold addNewBuffer. destruct (take al1) as [[ | ] al2]; auto.
    pose proof I as [F Fu Le Ne]. exists (ls ++ [[]]). split; [ | split; [ apply lv_app1 | split; [ rewrite app_length; cbn; lia | ] ] ].
    + consts. constructor.
      * apply Forall2_app; auto. constructor; auto. apply newBuffer_ok. consts; lia.
      * apply Forall_app. split; auto. constructor; auto. intros o s [].
      * rewrite app_length. cbn. consts. lia.
      * intro E. apply app_eq_nil in E. destruct E as [_ E]. discriminate.
    + exists (newBuffer maxCapacity). split; [ apply in_app_iff; right; left; auto | ]. apply canAllocate_ok; [ auto | ]. unfold remaining. cbn [newBuffer cap nextb]. lia.
Qed.
(** when allocation of memory works, expand works while there are fewer than 1023 buffers *)
Lemma mExpand_succeeds m size : 4 + size <= maxCapacity -> N.of_nat (length m) < maxItems -> exists m', fst (mExpand m size []) = Some m'.
Proof.
  intros S1 S2. unfold mExpand. consts. rewrite allocSize_small by lia. destruct (N.ltb_spec 1048476 (4 + size)); [ lia | ].
  destruct (expandBuffer m (4 + size) []) as [[m' | ] al1] eqn:E; [ cbn; eauto | ].
  destruct (N.leb_spec 1023 (N.of_nat (length m))); [ lia | ]. unfold addNewBuffer.
  assert (al1 = []). { unfold expandBuffer in E. destruct (rev m); [ inversion E; auto | ]. destruct (maxCapacity <=? _); [ inversion E; auto | ]. cbn in E. discriminate. }
  subst. cbn. eauto.
Qed.
Lemma mExpand_len m size al m' al' : mExpand m size al = (Some m', al') -> (length m' <= S (length m))%nat.
Proof.
  unfold mExpand. destruct (maxCapacity <? allocSize size); [ discriminate | ]. unfold expandBuffer, addNewBuffer.
  destruct (rev m) as [ | b r] eqn:Er.
  - destruct (maxItems <=? N.of_nat (length m)); [ discriminate | ]. destruct (take al) as [[ | ] ?]; [ | discriminate ].
    intro E; inversion E; subst. rewrite app_length. cbn. lia.
  - assert (El : length m = S (length r)) by (rewrite <- (rev_length m), Er; auto).
    destruct (maxCapacity <=? _).
    + destruct (maxItems <=? N.of_nat (length m)); [ discriminate | ]. destruct (take al) as [[ | ] ?]; [ | discriminate ].
      intro E; inversion E; subst. rewrite app_length. cbn. lia.
    + destruct (take al) as [[ | ] al1].
      * intro E; inversion E; subst. rewrite app_length, rev_length. cbn. lia.
      * destruct (maxItems <=? N.of_nat (length m)); [ discriminate | ]. destruct (take al1) as [[ | ] ?]; [ | discriminate ].
        intro E; inversion E; subst. rewrite app_length. cbn. lia.
Qed.
Lemma mClone_id m al r : mClone m al = r -> match fst r with Some m' => m' = m | None => True end.
Proof.
  revert al r. induction m as [ | b m IH]; intros al r E; cbn in E; subst; cbn; auto. destruct (take al) as [[ | ] al1]; cbn; auto.
  destruct (mClone m al1) as [[m' | ] al2] eqn:Em; cbn; auto. apply IH in Em. cbn in Em. congruence.
Qed.
Lemma mClone_all m : mClone m [] = (Some m, []).
Proof. induction m as [ | b m IH]; cbn; auto. rewrite IH. auto. Qed.
Lemma wastedPct_ok m ls : minv m ls -> exists w, wastedPct m = Some w.
Proof.
  intros [F _ _ Ne]. unfold wastedPct. assert (sumN (map cap m) <> 0).
  { destruct F as [ | b l m ls B F]; [ congruence | ]. cbn. destruct B as [_ _ _ C _]. lia. }
  destruct (N.eqb_spec (sumN (map cap m)) 0); [ congruence | eauto ].
Qed.

(** ** compact and iterate *)
Lemma lvb_snd i l : map snd (lvb i l) = flat_map (fun s => match spay s with Some p => [p] | None => [] end) (map snd (filter keepS l)).
Proof.
  induction l as [ | [o s] l IH]; auto. unfold lvb in *. cbn [flat_map filter]. unfold keepS at 1. cbn [snd fst]. rewrite map_app, IH.
  destruct (sremoved s); cbn; auto. destruct (spay s); cbn; auto.
Qed.
Lemma filter_keep_twice l : filter keepS (filter keepS l) = filter keepS l.
Proof. induction l as [ | x l IH]; auto. cbn. destruct (keepS x) eqn:E; auto. cbn. rewrite E, IH. auto. Qed.
Lemma keep_of_snd l l' : map snd l' = map snd (filter keepS l) -> map snd (filter keepS l') = map snd (filter keepS l).
Proof.
  intro E. assert (G : forall q, map snd q = map snd (filter keepS l) -> filter keepS q = q).
  { clear. induction l as [ | x l IH]; cbn; intros q E.
    - destruct q; [ auto | discriminate ].
    - destruct (keepS x) eqn:Ex; [ | auto ]. destruct q as [ | y q]; [ discriminate | ]. cbn in E. inversion E as [[E1 E2]]. cbn.
      unfold keepS in *. rewrite E1, Ex. rewrite (IH q); auto. }
  rewrite (G l'); auto.
Qed.
Lemma mCompact_ok m ls : minv m ls -> exists m' ls', mCompact m = Some m' /\ minv m' ls' /\ length m' = length m /\ map snd (lv ls' 0) = map snd (lv ls 0).
Proof.
  intros [F Fu Le Ne].
  assert (G : forall i, exists m' ls', mCompact m = Some m' /\ Forall2 binv m' ls' /\ Forall full ls' /\ length m' = length m /\ map snd (lv ls' i) = map snd (lv ls i)).
  { clear Le Ne. induction F as [ | b l m ls B F IH]; intro i.
    - exists [], []. auto.
    - inversion Fu as [ | ? ? Fl Fls]; subst. destruct (compactBuffer_ok b l B Fl) as (b' & l' & E & B' & C & Es & F').
      destruct (IH Fls (i + 1)) as (m' & ls' & Em & Fm & Ff & Ln & Ev). exists (b' :: m'), (l' :: ls'). cbn [mCompact]. rewrite E, Em.
      split; auto. split; auto. split; auto. cbn [length lv]. split; [ auto | ]. rewrite !map_app, Ev, !lvb_snd. f_equal. f_equal. apply keep_of_snd; auto. }
  destruct (G 0) as (m' & ls' & Em & Fm & Ff & Ln & Ev). exists m', ls'. split; auto. split; auto. constructor; auto.
  - rewrite Ln. auto.
  - intro; subst m'. destruct m; [ congruence | discriminate ].
Qed.
Lemma contents_ok i l : full l -> contents i (map (fun x => (fst x + 4, snd x)) l) = Some (lvb i l).
Proof.
  induction l as [ | [o s] l IH]; intro F; auto. cbn [map contents fst snd]. unfold lvb in *. cbn [flat_map fst snd].
  rewrite IH by (intros o1 s1 H1; apply (F o1 s1); right; auto). destruct (sremoved s) eqn:R; auto.
  destruct (spay s) eqn:E; [ auto | ]. exfalso. eapply (F o s); eauto. left. auto.
Qed.
Lemma mIterate_ok m ls : minv m ls -> mIterate m = Some (lv ls 0).
Proof.
  intros [F Fu _ _]. unfold mIterate. generalize 0. induction F as [ | b l m ls B F IH]; intro i; auto. inversion Fu; subst.
  cbn [iterFrom lv]. rewrite (bSlots_ok b l B), contents_ok by auto. rewrite IH by auto. auto.
Qed.
Lemma lvb_nodup i b l : i < 1023 -> binv b l -> NoDup (map fst (lvb i l)).
Proof.
  intros Li B. assert (G : forall l0, NoDup (map fst l0) -> (forall x, In x l0 -> In x l) -> NoDup (map fst (lvb i l0))).
  { induction l0 as [ | [o s] l0 IH]; intros ND Sub; [ constructor | ]. cbn in ND. inversion ND as [ | ? ? Ni ND']; subst.
    assert (NoDup (map fst (lvb i l0))) by (apply IH; auto; intros; apply Sub; right; auto).
    unfold lvb in *. cbn [flat_map fst snd]. destruct (sremoved s); auto. destruct (spay s); auto. cbn. constructor; auto.
    intro Hin. apply in_map_iff in Hin. destruct Hin as ([a p'] & E & Hin). cbn in E. subst a.
    apply (in_lvb i l0) in Hin. destruct Hin as (o1 & s1 & H1 & _ & _ & Ec).
    assert (I0 : In (o, s) l) by (apply Sub; left; auto). assert (I1 : In (o1, s1) l) by (apply Sub; right; auto).
    pose proof (binv_off _ _ _ _ B I0). pose proof (binv_off _ _ _ _ B I1). rewrite !compress_small in Ec by auto.
    assert (o = o1) by lia. subst o1. apply Ni. apply in_map_iff. exists (o, s1). auto. }
  apply G; auto. eapply layout_nodup. apply B.
Qed.
Lemma NoDup_app_intro {A} (l1 l2 : list A) : NoDup l1 -> NoDup l2 -> (forall x, In x l1 -> In x l2 -> False) -> NoDup (l1 ++ l2).
Proof.
  induction l1 as [ | x l1 IH]; cbn; intros N1 N2 D; auto. inversion N1; subst. constructor.
  - rewrite in_app_iff. intros [H | H]; [ auto | eapply D; eauto ].
  - apply IH; auto. intros y Y1 Y2. eapply D; eauto.
Qed.
Lemma lv_nodup m ls : minv m ls -> NoDup (map fst (lv ls 0)).
Proof.
  intros [F _ Le _]. consts.
  assert (G : forall i, i + N.of_nat (length m) <= 1023 -> NoDup (map fst (lv ls i))).
  { clear Le. induction F as [ | b l m ls B F IH]; intros i Le; [ constructor | ]. cbn [lv length] in *. rewrite map_app.
    apply NoDup_app_intro.
    - apply IH. lia.
    - eapply lvb_nodup; eauto. lia.
    - intros a A1 A2. apply in_map_iff in A1. destruct A1 as ([a1 p1] & E1 & A1). cbn in E1. subst a1. apply in_map_iff in A2. destruct A2 as ([a2 p2] & E2 & A2).
      cbn in E2. subst a2. apply in_lv in A1. destruct A1 as (j & l1 & o1 & s1 & H1 & H2 & _ & _ & ->). apply in_lvb in A2. destruct A2 as (o2 & s2 & H3 & _ & _ & Ec).
      destruct (Forall2_nth _ _ _ _ _ F H1) as (b1 & Eb & B1). assert (j < length m)%nat by (apply nth_error_Some; congruence).
      pose proof (binv_off _ _ _ _ B H3). pose proof (binv_off _ _ _ _ B1 H2). rewrite !compress_small in Ec by lia. lia. }
  apply G. lia.
Qed.
