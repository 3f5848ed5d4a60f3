From Coq Require Import ZifyBool ZifyNat ZifyN.
From Verif Require Import Bytes BucketStorage_model BucketStorage_spec.
Ltac Zify.zify_post_hook ::= Z.div_mod_to_equations.

Definition slot (p : list byte) : list byte := le_enc 4 (N.of_nat (length p)) ++ p.
Definition slots (l : list (list byte)) : list byte := flat_map slot l.

(** The representation relation: [s] stores exactly the strings [l]. *)
Record Rep (s : storage) (l : list (list byte)) : Prop := {
  rep_data : exists rest, sdata s = slots l ++ rest;
  rep_len  : length (sdata s) = scap s;
  rep_end  : send s = used l;
  rep_fit  : used l <= scap s;
  rep_num  : snum s = length l;
  rep_cap  : (N.of_nat (scap s) < two32)%N
}.

Lemma slot_length p : length (slot p) = 4 + length p.
Proof. unfold slot. now rewrite app_length, le_enc_length. Qed.

Lemma slots_app a b : slots (a ++ b) = slots a ++ slots b.
Proof. unfold slots. apply flat_map_app. Qed.

Lemma slots_length l : length (slots l) = used l.
Proof.
  induction l as [|p l IH]; [reflexivity|].
  cbn [slots flat_map used fold_right]. rewrite app_length, slot_length.
  fold (slots l). rewrite IH. unfold used. lia.
Qed.

Lemma used_app a b : used (a ++ b) = used a + used b.
Proof. rewrite <- !slots_length, slots_app, app_length. reflexivity. Qed.

Lemma used_cons p l : used (p :: l) = 4 + length p + used l.
Proof. reflexivity. Qed.

Lemma used_ge_len l : 4 * length l <= used l.
Proof. induction l as [|p l IH]; [simpl; lia|]. rewrite used_cons. cbn [length]. lia. Qed.

Lemma used_split l i : used l = used (firstn i l) + used (skipn i l).
Proof. rewrite <- used_app, firstn_skipn. reflexivity. Qed.

(** Where the i-th string lives. *)
Definition alloc_at (l : list (list byte)) (i : nat) : allocation :=
  {| aoff := used (firstn i l) + 4; asize := length (nth i l []); apos := i |}.

Lemma nth_split_at {A} (l : list A) i d :
  i < length l -> l = firstn i l ++ nth i l d :: skipn (S i) l.
Proof.
  revert i; induction l as [|x l IH]; intros i H; [simpl in H; lia|].
  destruct i as [|i]; [reflexivity|].
  cbn [firstn nth skipn app]. f_equal. apply IH. simpl in H. lia.
Qed.

Lemma skipn_nth {A} (l : list A) i d :
  i < length l -> skipn i l = nth i l d :: skipn (S i) l.
Proof.
  revert i; induction l as [|x l IH]; intros i H; [simpl in H; lia|].
  destruct i as [|i]; [reflexivity|]. cbn [skipn nth].
  apply IH. simpl in H. lia.
Qed.

Lemma firstn_S_nth {A} (l : list A) i d :
  i < length l -> firstn (S i) l = firstn i l ++ [nth i l d].
Proof.
  revert i; induction l as [|x l IH]; intros i H; [simpl in H; lia|].
  destruct i as [|i]; [reflexivity|].
  cbn [firstn nth app]. f_equal. apply IH. simpl in H. lia.
Qed.

Lemma used_firstn_S l i :
  i < length l -> used (firstn (S i) l) = used (firstn i l) + 4 + length (nth i l []).
Proof.
  intros H. rewrite (firstn_S_nth l i []) by assumption.
  rewrite used_app, used_cons. simpl. lia.
Qed.

Lemma used_firstn_le l i : used (firstn i l) <= used l.
Proof. rewrite (used_split l i). lia. Qed.

Lemma data_split s l rest i :
  sdata s = slots l ++ rest -> i < length l ->
  sdata s = slots (firstn i l) ++ le_enc 4 (N.of_nat (length (nth i l [])))
            ++ (nth i l [] ++ slots (skipn (S i) l) ++ rest).
Proof.
  intros Hd Hi. rewrite Hd. rewrite (nth_split_at l i [] Hi) at 1.
  rewrite slots_app. cbn [slots flat_map]. unfold slot at 2.
  fold (slots (skipn (S i) l)). now rewrite <- !app_assoc.
Qed.

Lemma payload_small s l i :
  Rep s l -> i < length l -> (N.of_nat (length (nth i l [])) < two32)%N.
Proof.
  intros HR Hi. pose proof (rep_cap _ _ HR). pose proof (rep_fit _ _ HR).
  rewrite (nth_split_at l i [] Hi) in H0. rewrite used_app, used_cons in H0. lia.
Qed.

Lemma rd_size s l i :
  Rep s l -> i < length l ->
  rd 4 (sdata s) (used (firstn i l)) = Some (N.of_nat (length (nth i l []))).
Proof.
  intros HR Hi. pose proof (payload_small _ _ _ HR Hi) as Hs.
  destruct HR as [[rest Hd] ? ? ? ? ?].
  rewrite (data_split _ _ _ _ Hd Hi).
  apply rd_app_mid; [now rewrite slots_length | exact Hs].
Qed.

Lemma readAlloc_at s l i :
  Rep s l -> i < length l -> readAlloc s (alloc_at l i) = Some (nth i l []).
Proof.
  intros HR Hi. destruct HR as [[rest Hd] ? ? ? ? ?].
  unfold readAlloc, alloc_at. cbn [aoff asize].
  rewrite (data_split _ _ _ _ Hd Hi). rewrite app_assoc.
  apply rd_bytes_app_mid; [|reflexivity].
  rewrite app_length, slots_length, le_enc_length. reflexivity.
Qed.

Lemma getFirst_spec s l :
  Rep s l ->
  getFirst s = Some (match l with [] => None | _ => Some (alloc_at l 0) end).
Proof.
  intros HR. unfold getFirst. rewrite (rep_end _ _ HR).
  destruct l as [|p l']; [reflexivity|].
  rewrite used_cons. replace (4 + length p + used l' =? 0) with false by (symmetry; apply Nat.eqb_neq; lia).
  pose proof (rd_size s (p :: l') 0 HR ltac:(simpl; lia)) as E.
  cbn [firstn] in E. change (used []) with 0 in E. rewrite E.
  unfold alloc_at. cbn [firstn nth]. change (used []) with 0.
  now rewrite Nat2N.id.
Qed.

Lemma getNext_spec s l i :
  Rep s l -> i < length l ->
  getNext s (alloc_at l i) =
    Some (if S i <? length l then Some (alloc_at l (S i)) else None).
Proof.
  intros HR Hi. unfold getNext. cbn [alloc_at aoff asize apos].
  rewrite (rep_end _ _ HR).
  replace (used (firstn i l) + 4 + length (nth i l [])) with (used (firstn (S i) l))
    by (rewrite used_firstn_S by assumption; lia).
  destruct (Nat.ltb_spec (S i) (length l)) as [Hlt|Hge].
  - pose proof (used_split l (S i)) as Hsp.
    rewrite (nth_split_at l (S i) [] Hlt) in Hsp at 3.
    rewrite skipn_app, firstn_length_le in Hsp by lia.
    rewrite skipn_all2 in Hsp by (rewrite firstn_length; lia).
    rewrite Nat.sub_diag in Hsp. cbn [skipn app] in Hsp. rewrite used_cons in Hsp.
    destruct (Nat.leb_spec (used l) (used (firstn (S i) l))); [lia|].
    rewrite (rd_size s l (S i) HR Hlt). rewrite Nat2N.id.
    unfold alloc_at. now rewrite Nat.add_1_r.
  - rewrite firstn_all2 by lia. rewrite Nat.leb_refl. reflexivity.
Qed.

Lemma iterFrom_spec s l : Rep s l ->
  forall k i fuel, i + k = length l -> k <= fuel ->
  iterFrom fuel s (if i <? length l then Some (alloc_at l i) else None)
  = Some (map (alloc_at l) (seq i k)).
Proof.
  intros HR. induction k as [|k IH]; intros i fuel Hik Hf.
  - destruct (Nat.ltb_spec i (length l)); [lia|]. destruct fuel; reflexivity.
  - destruct (Nat.ltb_spec i (length l)) as [Hi|]; [|lia].
    destruct fuel as [|fuel]; [lia|]. cbn [iterFrom].
    rewrite getNext_spec by assumption.
    rewrite IH by lia. reflexivity.
Qed.

Lemma iterAll_spec s l : Rep s l ->
  iterAll s = Some (map (alloc_at l) (seq 0 (length l))).
Proof.
  intros HR. unfold iterAll. rewrite (getFirst_spec s l HR).
  replace (match l with [] => None | _ => Some (alloc_at l 0) end)
    with (if 0 <? length l then Some (alloc_at l 0) else None) by (destruct l; reflexivity).
  apply iterFrom_spec; [assumption|lia|].
  pose proof (rep_len _ _ HR). pose proof (rep_fit _ _ HR). pose proof (used_ge_len l). lia.
Qed.

(** *** initial state *)
Lemma init_rep mem : (N.of_nat (length mem) < two32)%N -> Rep (initStorage mem) [].
Proof.
  intros H. constructor; simpl; try lia; try reflexivity; try assumption.
  exists mem. reflexivity.
Qed.

(** *** allocate *)
Lemma slotSize_small size : (N.of_nat size + 4 < two32)%N -> slotSize size = 4 + size.
Proof.
  intros H. unfold slotSize, wrap32, kAllocationOverhead.
  rewrite N.mod_small by lia. lia.
Qed.

Lemma allocate_fail s l size :
  Rep s l -> (N.of_nat size + 4 < two32)%N -> scap s < used l + 4 + size ->
  allocate s size = Some (s, None).
Proof.
  intros HR Hs Hf. unfold allocate, canAllocate. rewrite slotSize_small by assumption.
  rewrite (rep_end _ _ HR).
  destruct (Nat.leb_spec (used l + (4 + size)) (scap s)); [lia|reflexivity].
Qed.

Lemma allocate_ok s l payload :
  Rep s l -> (N.of_nat (length payload) + 4 < two32)%N ->
  used l + 4 + length payload <= scap s ->
  exists s1 s2,
    allocate s (length payload) = Some (s1, Some (alloc_at (l ++ [payload]) (length l)))
    /\ writeAlloc s1 (alloc_at (l ++ [payload]) (length l)) payload = Some s2
    /\ scap s2 = scap s
    /\ Rep s2 (l ++ [payload]).
Proof.
  intros HR Hs Hf. destruct HR as [[rest Hd] Hlen Hend Hfit Hnum Hcap].
  assert (Hrest : length rest = scap s - used l).
  { rewrite Hd, app_length, slots_length in Hlen. lia. }
  pose (r1 := firstn 4 rest). pose (r2 := firstn (length payload) (skipn 4 rest)).
  pose (r3 := skipn (length payload) (skipn 4 rest)).
  assert (Hr : rest = r1 ++ r2 ++ r3).
  { unfold r1, r2, r3. now rewrite !firstn_skipn. }
  assert (L1 : length r1 = 4) by (unfold r1; rewrite firstn_length; lia).
  assert (L2 : length r2 = length payload)
    by (unfold r2; rewrite firstn_length, skipn_length; lia).
  assert (W : wr (sdata s) (send s) (le_enc 4 (N.of_nat (length payload)))
              = Some (slots l ++ le_enc 4 (N.of_nat (length payload)) ++ r2 ++ r3)).
  { rewrite Hd, Hr, Hend. apply wr_app_mid; [now rewrite slots_length|].
    now rewrite le_enc_length, L1. }
  eexists. eexists. split; [|split; [|split]].
  - unfold allocate, canAllocate. rewrite slotSize_small by assumption.
    rewrite Hend. destruct (Nat.leb_spec (used l + (4 + length payload)) (scap s)); [|lia].
    cbn [negb]. rewrite Hend in W. rewrite W.
    unfold alloc_at. rewrite firstn_app, firstn_all, Nat.sub_diag. cbn [firstn].
    rewrite app_nil_r, Hnum.
    rewrite app_nth2, Nat.sub_diag by lia. cbn [nth]. reflexivity.
  - unfold writeAlloc. cbn [sdata scap snum send].
    unfold alloc_at. cbn [aoff].
    rewrite firstn_app, firstn_all, Nat.sub_diag. cbn [firstn]. rewrite app_nil_r.
    rewrite app_assoc.
    rewrite wr_app_mid; [reflexivity| |now rewrite L2].
    rewrite app_length, slots_length, le_enc_length. reflexivity.
  - reflexivity.
  - constructor; cbn [sdata scap snum send].
    + exists r3. rewrite slots_app. cbn [slots flat_map].
      unfold slot. rewrite app_nil_r. now rewrite <- !app_assoc.
    + rewrite !app_length, slots_length, le_enc_length.
      rewrite Hr, !app_length in Hrest. lia.
    + rewrite used_app, used_cons. simpl. lia.
    + rewrite used_app, used_cons. simpl. lia.
    + rewrite app_length. simpl. lia.
    + assumption.
Qed.

(** *** removal of a marked subset *)
Lemma marked_allocs_shift {A} (m : list bool) (l : list A) : length (marked m l) + length (unmarked m l) = length l.
Proof.
  revert l; induction m as [|b m IH]; intros [|x l]; simpl; try reflexivity.
  destruct b; simpl; specialize (IH l); lia.
Qed.

(** Loop invariant of remove(vector).  [pre] = strings already passed (all up to
    the last removed one), [kept] = those of [pre] that are kept, compacted at
    the start; [gap] = unmarked strings seen since the last removal are part of
    the remaining list.  We phrase the loop over the mask. *)
Fixpoint removed_allocs (base i : nat) (m : list bool) (l : list (list byte)) : list allocation :=
  match m, l with
  | b :: m', p :: l' =>
    let a := {| aoff := base + 4; asize := length p; apos := i |} in
    let r := removed_allocs (base + 4 + length p) (S i) m' l' in
    if b then a :: r else r
  | _, _ => []
  end.

Lemma removed_allocs_spec : forall m l pre,
  removed_allocs (used pre) (length pre) m l
  = marked m (map (alloc_at (pre ++ l)) (seq (length pre) (length l))).
Proof.
  induction m as [|b m IH]; intros l pre; [destruct l; reflexivity|].
  destruct l as [|p l]; [reflexivity|].
  cbn [removed_allocs length seq map marked].
  specialize (IH l (pre ++ [p])).
  rewrite app_length, used_app, used_cons in IH. cbn [length used fold_right] in IH.
  rewrite <- app_assoc in IH. cbn [app] in IH.
  replace (used pre + (4 + length p + 0)) with (used pre + 4 + length p) in IH by lia.
  rewrite Nat.add_1_r in IH. rewrite IH.
  assert (E : {| aoff := used pre + 4; asize := length p; apos := length pre |}
              = alloc_at (pre ++ p :: l) (length pre)).
  { unfold alloc_at. rewrite firstn_app, firstn_all, Nat.sub_diag. cbn [firstn].
    rewrite app_nil_r. rewrite app_nth2, Nat.sub_diag by lia. reflexivity. }
  rewrite E. reflexivity.
Qed.

(** Data-level view: slots kept so far [K], dead zone [D], unmarked run since the
    last removal [G], the rest [R].  Array = K ++ D ++ G ++ R with src = |K|+|D|,
    dst = |K|, D empty iff nothing removed yet. *)
Lemma memmove_shift {A} (K D G R : list A) :
  exists D', length D' = length D /\
  memmove (K ++ D ++ G ++ R) (length K) (length K + length D) (length G)
  = K ++ G ++ D' ++ R.
Proof.
  unfold memmove.
  assert (S : slice (K ++ D ++ G ++ R) (length K + length D) (length G) = G).
  { rewrite app_assoc. apply slice_app_mid; [now rewrite app_length|reflexivity]. }
  rewrite S. exists (skipn (length G) (D ++ G)). split.
  { rewrite skipn_length, app_length. lia. }
  unfold splice.
  rewrite firstn_app, firstn_all, Nat.sub_diag. cbn [firstn]. rewrite app_nil_r.
  f_equal. f_equal.
  rewrite skipn_app. rewrite skipn_all2 by lia. cbn [app].
  replace (length K + length G - length K) with (length G) by lia.
  rewrite app_assoc, skipn_app, app_length.
  replace (length G - (length D + length G)) with 0 by lia. reflexivity.
Qed.

Lemma remove_loop : forall m l (kept gap : list (list byte)) (D tail : list byte) (base i n : nat),
  base = length (slots kept ++ D ++ slots gap) ->
  exists kept' gap' D',
    kept' ++ gap' = kept ++ gap ++ unmarked m l /\
    length D' = length D + used (marked m l) /\
    fold_left removeStep (removed_allocs base i m l)
       (length (slots kept ++ D), length (slots kept), n, slots kept ++ D ++ slots gap ++ slots l ++ tail)
    = (length (slots kept' ++ D'), length (slots kept'), n - length (marked m l),
       slots kept' ++ D' ++ slots gap' ++ tail).
Proof.
  induction m as [|b m IH]; intros l kept gap D tail base i n Hb.
  - exists kept, (gap ++ l), D. destruct l; cbn [unmarked removed_allocs fold_left marked length];
    rewrite ?app_nil_r, ?Nat.sub_0_r, ?slots_app, <- ?app_assoc; repeat split; try reflexivity;
    change (used []) with 0; lia.
  - destruct l as [|p l].
    { exists kept, gap, D. cbn. rewrite ?app_nil_r, ?Nat.sub_0_r.
      repeat split; try reflexivity. lia. }
    destruct b.
    + (* p is removed *)
      cbn [removed_allocs unmarked marked fold_left length].
      unfold removeStep at 2. cbn [aoff asize].
      replace (base + 4 - kAllocationOverhead) with base by (unfold kAllocationOverhead; lia).
      rewrite !app_length in Hb.
      assert (Hcase : exists dst' d' D1,
        (if negb (length (slots kept ++ D) =? base)
         then (length (slots kept) + (base - length (slots kept ++ D)),
               if negb (length (slots kept) =? length (slots kept ++ D))
               then memmove (slots kept ++ D ++ slots gap ++ slots (p :: l) ++ tail)
                      (length (slots kept)) (length (slots kept ++ D)) (base - length (slots kept ++ D))
               else slots kept ++ D ++ slots gap ++ slots (p :: l) ++ tail)
         else (length (slots kept), slots kept ++ D ++ slots gap ++ slots (p :: l) ++ tail))
        = (dst', d') /\
        dst' = length (slots (kept ++ gap)) /\
        length D1 = length D /\
        d' = slots (kept ++ gap) ++ D1 ++ slots (p :: l) ++ tail).
      { rewrite slots_app, !app_length.
        destruct (Nat.eqb_spec (length (slots kept) + length D) base) as [E|E]; cbn [negb].
        - assert (G0 : length (slots gap) = 0) by lia.
          apply length_zero_iff_nil in G0. rewrite G0.
          eexists _, _, D. split; [reflexivity|].
          rewrite !app_nil_r. cbn [app length].
          repeat split; try reflexivity. lia.
        - replace (base - (length (slots kept) + length D)) with (length (slots gap)) by lia.
          destruct (Nat.eqb_spec (length (slots kept)) (length (slots kept) + length D)) as [E2|E2]; cbn [negb].
          + assert (D0 : length D = 0) by lia. apply length_zero_iff_nil in D0. subst D.
            eexists _, _, []. split; [reflexivity|]. cbn [app length].
            repeat split; try lia. now rewrite <- app_assoc.
          + destruct (memmove_shift (slots kept) D (slots gap) (slots (p :: l) ++ tail)) as (D' & L' & E').
            eexists _, _, D'. split; [reflexivity|]. repeat split; try lia.
            rewrite E'. now rewrite <- app_assoc. }
      destruct Hcase as (dst' & d' & D1 & E1 & -> & HD1 & ->). rewrite E1.
      assert (Hs : slots (kept ++ gap) ++ D1 ++ slots (p :: l) ++ tail
                   = slots (kept ++ gap) ++ (D1 ++ slot p) ++ slots [] ++ slots l ++ tail).
      { cbn [slots flat_map]. fold (slots l). now rewrite <- !app_assoc. }
      rewrite Hs.
      replace (base + 4 + length p)
        with (length (slots (kept ++ gap) ++ (D1 ++ slot p))).
      2:{ rewrite slots_app, !app_length, slot_length. lia. }
      destruct (IH l (kept ++ gap) [] (D1 ++ slot p) tail
                 (length (slots (kept ++ gap) ++ (D1 ++ slot p))) (S i) (n - 1)) as (k' & g' & D' & I1 & I2 & I3).
      { cbn. rewrite app_nil_r. reflexivity. }
      exists k', g', D'. split; [|split].
      * rewrite I1. now rewrite <- app_assoc.
      * rewrite I2, app_length, slot_length, used_cons. lia.
      * rewrite I3. f_equal. f_equal. lia.
    + cbn [removed_allocs unmarked marked].
      destruct (IH l kept (gap ++ [p]) D tail (base + 4 + length p) (S i) n) as (k' & g' & D' & I1 & I2 & I3).
      { rewrite slots_app, !app_length. rewrite !app_length in Hb. cbn [slots flat_map].
        rewrite app_nil_r, slot_length. lia. }
      exists k', g', D'. split; [|split]; try assumption.
      * rewrite I1. now rewrite <- !app_assoc.
      * rewrite <- I3. rewrite slots_app. cbn [slots flat_map]. rewrite app_nil_r.
        fold (slots l). now rewrite <- !app_assoc.
Qed.

Lemma marked_nil_unmarked {A} (m : list bool) (l : list A) : marked m l = [] -> unmarked m l = l.
Proof.
  revert l; induction m as [|b m IH]; intros [|x l] H; simpl in *; try reflexivity.
  destruct b; [discriminate|]. now rewrite IH.
Qed.

Lemma removed_nil_marked : forall m l base i, removed_allocs base i m l = [] -> marked m l = [].
Proof.
  induction m as [|b m IH]; intros [|x l] base i H; simpl in *; try reflexivity.
  destruct b; [discriminate|]. eapply IH; eassumption.
Qed.

Lemma used_marked m : forall l, used (marked m l) + used (unmarked m l) = used l.
Proof.
  induction m as [|b m IH]; intros [|x l]; cbn [marked unmarked]; try reflexivity.
  destruct b; rewrite !used_cons; specialize (IH l); lia.
Qed.

Lemma removeAll_spec s l m :
  Rep s l ->
  let allocs := marked m (map (alloc_at l) (seq 0 (length l))) in
  scap (removeAll s allocs) = scap s /\ Rep (removeAll s allocs) (unmarked m l).
Proof.
  intros HR allocs.
  assert (HA : allocs = removed_allocs 0 0 m l).
  { unfold allocs. pose proof (removed_allocs_spec m l []) as E. cbn in E. now rewrite E. }
  rewrite HA. clear HA allocs.
  destruct HR as [[rest Hd] Hlen Hend Hfit Hnum Hcap].
  unfold removeAll.
  destruct (removed_allocs 0 0 m l) as [|a0 al] eqn:HE.
  - rewrite (marked_nil_unmarked m l (removed_nil_marked _ _ _ _ HE)).
    split; [reflexivity|]. constructor; try assumption. now exists rest.
  - rewrite <- HE. clear HE a0 al.
    destruct (remove_loop m l [] [] [] rest 0 0 (snum s) eq_refl) as (k & g & D & I1 & I2 & I3).
    cbn [slots flat_map app length] in I3. fold (slots l) in I3.
    rewrite <- Hd in I3. rewrite I3. cbn [app] in I1.
    pose proof (used_marked m l) as HU.
    assert (Hkg : used k + used g = used (unmarked m l)) by (rewrite <- I1, used_app; reflexivity).
    assert (HD : length D = used (marked m l)) by (rewrite I2; reflexivity).
    clear I2 I3.
    rewrite app_length, slots_length, Hend.
    assert (Hsub : used l - (used k + length D) = used g) by lia.
    assert (Hn : snum s - length (marked m l) = length (unmarked m l)).
    { pose proof (marked_allocs_shift m l). lia. }
    assert (Hrl : length rest = scap s - used l).
    { rewrite Hd, app_length, slots_length in Hlen. lia. }
    destruct (Nat.eqb_spec (used k + length D) (used l)) as [E|E]; cbn [negb].
    + assert (G0 : g = []).
      { destruct g as [|g0 g']; [reflexivity|]. rewrite used_cons in Hsub. lia. }
      subst g. rewrite app_nil_r in I1. subst k.
      split; [reflexivity|]. constructor; cbn [sdata scap snum send]; try assumption.
      * exists (D ++ rest). cbn. reflexivity.
      * cbn. rewrite !app_length, slots_length. change (used []) with 0 in *. lia.
      * try rewrite slots_length. reflexivity.
      * change (used []) with 0 in *. lia.
    + rewrite Hsub. try rewrite slots_length.
      destruct (memmove_shift (slots k) D (slots g) rest) as (D' & L' & E').
      rewrite !slots_length in E'. rewrite E'.
      split; [reflexivity|]. constructor; cbn [sdata scap snum send]; try assumption.
      * exists (D' ++ rest). rewrite <- I1, slots_app. now rewrite <- app_assoc.
      * rewrite !app_length, !slots_length. lia.
      * lia.
Qed.

Lemma marked_single {A} (l : list A) i d :
  i < length l ->
  marked (repeat false i ++ [true]) l = [nth i l d] /\
  unmarked (repeat false i ++ [true]) l = firstn i l ++ skipn (S i) l.
Proof.
  revert i; induction l as [|x l IH]; intros i H; [simpl in H; lia|].
  destruct i as [|i]; cbn [repeat app].
  - split; reflexivity.
  - destruct (IH i ltac:(simpl in H; lia)) as [E1 E2].
    cbn [marked unmarked nth firstn skipn app]. rewrite E1, E2. split; reflexivity.
Qed.

Lemma removeOne_spec s l i :
  Rep s l -> i < length l ->
  scap (removeOne s (alloc_at l i)) = scap s /\
  Rep (removeOne s (alloc_at l i)) (firstn i l ++ skipn (S i) l).
Proof.
  intros HR Hi.
  pose proof (removeAll_spec s l (repeat false i ++ [true]) HR) as H.
  destruct (marked_single l i [] Hi) as [_ E2]. rewrite E2 in H.
  assert (Hi2 : i < length (map (alloc_at l) (seq 0 (length l))))
    by (now rewrite map_length, seq_length).
  destruct (marked_single _ i (alloc_at l 0) Hi2) as [E1 _].
  rewrite E1 in H. rewrite map_nth, seq_nth in H by assumption.
  exact H.
Qed.

Lemma removeUntil_spec s l i :
  Rep s l -> i < length l ->
  scap (removeUntil s (Some (alloc_at l i))) = scap s /\
  Rep (removeUntil s (Some (alloc_at l i))) (skipn (S i) l).
Proof.
  intros HR Hi. destruct HR as [[rest Hd] Hlen Hend Hfit Hnum Hcap].
  unfold removeUntil, alloc_at. cbn [aoff asize apos].
  replace (used (firstn i l) + 4 + length (nth i l [])) with (used (firstn (S i) l))
    by (rewrite used_firstn_S by assumption; lia).
  pose proof (used_split l (S i)) as Hsp.
  rewrite Hend. destruct (Nat.ltb_spec (used l) (used (firstn (S i) l))); [lia|].
  split; [reflexivity|].
  assert (Hd2 : sdata s = [] ++ slots (firstn (S i) l) ++ slots (skipn (S i) l) ++ rest).
  { rewrite Hd. cbn [app]. rewrite app_assoc, <- slots_app, firstn_skipn. reflexivity. }
  destruct (memmove_shift [] (slots (firstn (S i) l)) (slots (skipn (S i) l)) rest) as (D' & L' & E').
  rewrite !slots_length in *. cbn [length Nat.add] in E'.
  replace (used l - used (firstn (S i) l)) with (used (skipn (S i) l)) by lia.
  constructor; cbn [sdata scap snum send]; try assumption.
  - exists (D' ++ rest). rewrite Hd2, E'. reflexivity.
  - rewrite Hd2, E'. cbn [app]. rewrite !app_length, slots_length.
    rewrite Hd, app_length, slots_length in Hlen. lia.
  - reflexivity.
  - lia.
  - rewrite skipn_length. lia.
Qed.

Lemma removeUntil_done s : removeUntil s None = s.
Proof. reflexivity. Qed.
