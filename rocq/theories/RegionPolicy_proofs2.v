From Coq Require Import List Arith Bool Lia Permutation Sorting.Sorted.
Import ListNotations.
From Verif Require Import RegionPolicy_model RegionPolicy_spec.

Lemma spill_spec lim : forall cur next, let '(c, n) := spill lim cur next in
  n ++ c = next ++ cur /\ (length c <= lim \/ c = []) /\ (exists k, c = skipn k cur /\ n = next ++ firstn k cur).
Proof.
  induction cur as [|x cur IH]; intros next; cbn [spill].
  - split; [reflexivity|]. split; [right; reflexivity|]. exists 0. cbn. split; [reflexivity|]. rewrite app_nil_r; reflexivity.
  - destruct (Nat.ltb_spec lim (length (x :: cur))) as [L|L].
    + specialize (IH (next ++ [x])). destruct (spill lim cur (next ++ [x])) as [c n]. destruct IH as (A & B & k & K1 & K2).
      split; [rewrite A, <- app_assoc; reflexivity|]. split; [exact B|]. exists (S k). cbn. split; [exact K1|]. rewrite K2, <- app_assoc. reflexivity.
    + split; [reflexivity|]. split; [left; exact L|]. exists 0. cbn. split; [reflexivity|]. rewrite app_nil_r; reflexivity.
Qed.
Lemma rebalRev_len t w : forall rest rs cur, length (rebalRev t w rs cur rest) = S (length rest).
Proof.
  induction rest as [|next rest IH]; intros rs cur; cbn [rebalRev]; [reflexivity|].
  destruct rs as [|r rs]; [reflexivity|]. destruct (spill _ _ _) as [c n]. cbn. rewrite IH. reflexivity.
Qed.
Lemma rebalRev_concat t w : forall rest rs cur, concat (rev (rebalRev t w rs cur rest)) = concat (rev (cur :: rest)).
Proof.
  induction rest as [|next rest IH]; intros rs cur; cbn [rebalRev]; [reflexivity|].
  destruct rs as [|r rs]; [reflexivity|].
  pose proof (spill_spec (t * r / w) cur next) as S. destruct (spill _ _ _) as [c n]. destruct S as (A & _).
  cbn [rev]. rewrite !concat_app. rewrite IH. cbn [rev concat]. rewrite !concat_app. cbn [concat].
  rewrite !app_nil_r. rewrite <- !app_assoc. rewrite A. reflexivity.
Qed.
Lemma rebalance_concat r s : concat (rebalance r s) = concat s.
Proof.
  unfold rebalance. destruct (rev s) as [|cur rest] eqn:E.
  - reflexivity.
  - rewrite rebalRev_concat, <- E, rev_involutive. reflexivity.
Qed.
Lemma rebalance_len r s : length (rebalance r s) = length s.
Proof.
  unfold rebalance. destruct (rev s) as [|cur rest] eqn:E; [reflexivity|].
  rewrite rev_length, rebalRev_len. rewrite <- (rev_length s), E. reflexivity.
Qed.

(** limits *)
Lemma rebalRev_limits t w : forall rest rs cur i g r, length rs = S (length rest) ->
  nth_error (rebalRev t w rs cur rest) i = Some g -> i < length rest -> nth_error rs i = Some r -> length g <= t * r / w.
Proof.
  induction rest as [|next rest IH]; intros rs cur i g r L E I R; cbn in I; [lia|].
  destruct rs as [|r0 rs]; [discriminate|]. cbn [rebalRev] in E.
  pose proof (spill_spec (t * r0 / w) cur next) as S. destruct (spill _ _ _) as [c n]. destruct S as (_ & B & _).
  destruct i as [|i]; cbn in E, R.
  - injection E as ->. injection R as ->. destruct B as [B| ->]; [exact B|apply Nat.le_0_l].
  - eapply IH; [|exact E|lia|exact R]. cbn [length] in L. lia.
Qed.
Lemma fold_add l : forall a, fold_left Nat.add l a = a + list_sum l.
Proof. induction l as [|x l IH]; intros a; cbn [fold_left]; [cbn; lia|]. rewrite IH. change (list_sum (x :: l)) with (x + list_sum l). lia. Qed.
Lemma weight_sum r : weight r = list_sum r.
Proof. unfold weight. rewrite fold_add. reflexivity. Qed.
Lemma numElements_concat s : numElements s = length (concat s).
Proof.
  unfold numElements. assert (G : forall s a, fold_left (fun a (g : list snode) => a + length g) s a = a + length (concat s)).
  { clear. induction s as [|g s IH]; intros a; cbn [fold_left]; [cbn; lia|]. rewrite IH. cbn. rewrite app_length. lia. }
  apply G.
Qed.
(** every segment but the lowest is within its share *)
Definition within (r : list nat) (s : list (list snode)) : Prop :=
  forall i g ra, 0 < i -> nth_error s i = Some g -> nth_error r i = Some ra -> length g <= length (concat s) * ra / list_sum r.
Lemma nth_error_rev {A} (l : list A) i : i < length l -> nth_error (rev l) i = nth_error l (length l - 1 - i).
Proof.
  intros H. destruct l as [|d l'] eqn:E; [cbn in H; lia|]. rewrite <- E in *. 
  rewrite nth_error_nth' with (d := d) by (rewrite rev_length; exact H).
  rewrite rev_nth by exact H. symmetry. rewrite nth_error_nth' with (d := d) by lia. f_equal. f_equal. lia.
Qed.
Lemma rebalance_within r s : length r = length s -> within r (rebalance r s).
Proof.
  intros L i g ra I G R. rewrite rebalance_concat. rewrite <- numElements_concat, <- weight_sum.
  assert (II : i < length s). { rewrite <- (rebalance_len r s). apply nth_error_Some. congruence. }
  unfold rebalance in G. destruct (rev s) as [|cur rest] eqn:E.
  { apply (f_equal (@length _)) in E. rewrite rev_length in E. cbn in E. lia. }
  assert (LR : S (length rest) = length s) by (rewrite <- (rev_length s), E; reflexivity).
  rewrite nth_error_rev in G by (rewrite rebalRev_len; lia). rewrite rebalRev_len in G.
  eapply (rebalRev_limits _ _ rest (rev r) cur (S (length rest) - 1 - i)).
  - rewrite rev_length. lia.
  - exact G.
  - lia.
  - rewrite nth_error_rev by lia. rewrite <- R. f_equal. lia.
Qed.
Lemma share_sum total w (P : 0 < w) : forall (s : list (list snode)) (r : list nat), length r = length s ->
  (forall i g ra, nth_error s i = Some g -> nth_error r i = Some ra -> length g <= total * ra / w) ->
  length (concat s) * w <= total * list_sum r.
Proof.
  induction s as [|g s IH]; intros r L H; destruct r as [|a r]; try discriminate; cbn.
  - lia.
  - rewrite app_length. pose proof (H 0 g a eq_refl eq_refl) as B.
    assert (length g * w <= total * a). { pose proof (Nat.mul_div_le (total * a) w ltac:(lia)). nia. }
    assert (length (concat s) * w <= total * list_sum r). { apply IH; [cbn in L; lia|]. intros i. apply (H (S i)). }
    change (fold_right Nat.add 0 r) with (list_sum r). nia.
Qed.
Lemma lowest_nonempty r s : length r = length s -> Forall (fun x => 0 < x) r -> within r s ->
  concat s <> [] -> exists x g rest, s = (x :: g) :: rest.
Proof.
  intros L P W NE. destruct s as [|[|x g] rest]; [cbn in NE; congruence| |exists x, g, rest; reflexivity].
  exfalso. destruct r as [|a r]; [discriminate|]. inversion P as [|? ? Pa Pr]; subst.
  pose proof (share_sum (length (concat rest)) (list_sum (a :: r)) ltac:(cbn; lia) rest r ltac:(cbn in L; lia)) as Q.
  assert (length (concat rest) * list_sum (a :: r) <= length (concat rest) * list_sum r) as X.
  { apply Q. intros i g0 ra G R. apply (W (S i) g0 ra); [lia|exact G|exact R]. }
  cbn in X, NE. change (fold_right Nat.add 0 r) with (list_sum r) in X.
  destruct (concat rest); [congruence|]. cbn [length] in X. nia.
Qed.

(** order *)
Definition okOrder (x y : snode) : Prop := ~ (strackTime y < strackTime x /\ gprio y <= gprio x).
Definition prioOk (s : list (list snode)) : Prop := forall i g x, nth_error s i = Some g -> In x g -> i <= gprio x.

Lemma rebalRev_prio t w : forall rest rs cur,
  (forall i g x, nth_error (cur :: rest) i = Some g -> In x g -> length rest - i <= gprio x) ->
  forall i g x, nth_error (rebalRev t w rs cur rest) i = Some g -> In x g -> length rest - i <= gprio x.
Proof.
  induction rest as [|next rest IH]; intros rs cur H i g x G I; cbn [rebalRev] in G.
  - apply (H i g x G I).
  - destruct rs as [|r rs]; [apply (H i g x G I)|].
    pose proof (spill_spec (t * r / w) cur next) as S. destruct (spill _ _ _) as [c n]. destruct S as (_ & _ & k & K1 & K2).
    destruct i as [|i]; cbn in G.
    + injection G as <-. apply (H 0 cur x eq_refl). rewrite K1 in I. rewrite <- (firstn_skipn k cur). apply in_or_app; right; exact I.
    + cbn [length]. replace (S (length rest) - S i) with (length rest - i) by lia. eapply IH; [|exact G|exact I].
      intros j g' x' G' I'. destruct j as [|j]; cbn in G'.
      * injection G' as <-. rewrite K2 in I'. apply in_app_or in I' as [I'|I'].
        -- specialize (H 1 next x' eq_refl I'). cbn [length] in H. lia.
        -- specialize (H 0 cur x' eq_refl). cbn [length] in H. assert (In x' cur) by (rewrite <- (firstn_skipn k cur); apply in_or_app; left; exact I').
           specialize (H ltac:(assumption)). lia.
      * specialize (H (S (S j)) g' x' G' I'). cbn [length] in H. lia.
Qed.
Lemma rebalance_prio r s : prioOk s -> prioOk (rebalance r s).
Proof.
  intros H. unfold rebalance. destruct (rev s) as [|cur rest] eqn:E; [exact H|].
  assert (LR : S (length rest) = length s) by (rewrite <- (rev_length s), E; reflexivity).
  intros i g x G I.
  assert (II : i < S (length rest)). { rewrite <- (rebalRev_len (numElements s) (weight r) rest (rev r) cur), <- rev_length. apply nth_error_Some. congruence. }
  rewrite nth_error_rev in G by (rewrite rebalRev_len; exact II). rewrite rebalRev_len in G.
  pose proof (rebalRev_prio (numElements s) (weight r) rest (rev r) cur) as Q.
  specialize (Q ltac:(intros j g' x' G' I'; rewrite <- E in G';
     assert (JJ : j < length (rev s)) by (apply nth_error_Some; congruence); rewrite rev_length in JJ;
     rewrite nth_error_rev in G' by exact JJ; specialize (H _ _ _ G' I'); lia)).
  specialize (Q _ _ _ G I). lia.
Qed.
Lemma pushAt_spec : forall s p x g, pushAt s p x = Some g -> exists a m b, s = a ++ m :: b /\ length a = p /\ g = a ++ (m ++ [x]) :: b.
Proof.
  induction s as [|m s IH]; intros p x g H; [discriminate|]. destruct p as [|p]; cbn in H.
  - injection H as <-. exists [], m, s. auto.
  - destruct (pushAt s p x) as [g'|] eqn:E; [|discriminate]. injection H as <-.
    destruct (IH _ _ _ E) as (a & m' & b & -> & <- & ->). exists (m :: a), m', b. auto.
Qed.
Lemma pushAt_some : forall s p x, p < length s -> exists g, pushAt s p x = Some g.
Proof.
  induction s as [|m s IH]; intros p x H; cbn in H; [lia|]. destruct p as [|p]; cbn; [eexists; reflexivity|].
  destruct (IH p x ltac:(lia)) as (g & ->). cbn. eexists; reflexivity.
Qed.
Lemma sorted_insert {A} (R : A -> A -> Prop) l1 l2 x : StronglySorted R (l1 ++ l2) ->
  (forall y, In y l1 -> R y x) -> (forall y, In y l2 -> R x y) -> StronglySorted R (l1 ++ x :: l2).
Proof.
  induction l1 as [|a l1 IH]; cbn; intros S H1 H2.
  - constructor; [exact S|]. apply Forall_forall. exact H2.
  - inversion S as [|? ? S1 F]; subst. constructor.
    + apply IH; [exact S1|intros y Y; apply H1; right; exact Y|exact H2].
    + rewrite Forall_forall in *. intros y Y. apply in_app_or in Y as [Y|[<-|Y]].
      * apply F. apply in_or_app; left; exact Y.
      * apply H1. left; reflexivity.
      * apply F. apply in_or_app; right; exact Y.
Qed.

Record sinv (r : list nat) (t : nat) (s : sfifo) : Prop := {
  si_r : ratios s = r; si_len : length (segs s) = length r; si_pos : Forall (fun x => 0 < x) r;
  si_within : within r (segs s); si_prio : prioOk (segs s);
  si_order : StronglySorted okOrder (concat (segs s)); si_time : Forall (fun x => strackTime x < t) (concat (segs s)) }.

Lemma concat_nils {A} (r : list A) : concat (map (fun _ => @nil snode) r) = [].
Proof. induction r; cbn; auto. Qed.
Lemma nils_inv r t : Forall (fun x => 0 < x) r -> forall n : list (list snode), length n = length r -> (forall g, In g n -> g = []) -> sinv r t (mkSF r n).
Proof.
  intros P n L N. assert (C : concat n = []). { clear L. induction n as [|g n IH]; cbn; [reflexivity|]. rewrite (N g) by (left; reflexivity). apply IH. intros; apply N; right; assumption. }
  constructor; cbn; try assumption; try reflexivity.
  - intros i g ra _ G _. rewrite (N g) by (eapply nth_error_In; exact G). apply Nat.le_0_l.
  - intros i g x G I. rewrite (N g) in I by (eapply nth_error_In; exact G). destruct I.
  - rewrite C. constructor.
  - rewrite C. constructor.
Qed.
Lemma new_inv r s t : sfifoNew r = Some s -> sinv r t s.
Proof.
  unfold sfifoNew. destruct (existsb (Nat.eqb 0) r) eqn:E; [discriminate|].
  destruct r as [|a r0] eqn:ER; [discriminate|]. rewrite <- ER in *. intros [= <-]. apply nils_inv.
  - apply Forall_forall. intros x X. destruct x; [|lia]. exfalso. rewrite <- not_true_iff_false in E. apply E. apply existsb_exists. exists 0. auto.
  - rewrite map_length. reflexivity.
  - intros g G. apply in_map_iff in G as (? & <- & _). reflexivity.
Qed.
Lemma track_inv r t s rg p now : sinv r t s -> p < length r -> t <= now ->
  exists s', sfifoTrack s rg p now = Some s' /\ sinv r (S now) s' /\
    Permutation (concat (segs s')) (mkSNode rg now p :: concat (segs s)).
Proof.
  intros [R L P W PR O T] LP LT. unfold sfifoTrack.
  destruct (pushAt_some (segs s) p (mkSNode rg now p) ltac:(lia)) as (g & E). rewrite E. eexists. split; [reflexivity|].
  destruct (pushAt_spec _ _ _ _ E) as (a & m & b & Es & La & Eg).
  assert (C : concat (segs s) = (concat a ++ m) ++ concat b) by (rewrite Es, concat_app; cbn; rewrite <- app_assoc; reflexivity).
  assert (Cg : concat g = (concat a ++ m) ++ mkSNode rg now p :: concat b).
  { rewrite Eg, concat_app. cbn [concat]. rewrite <- !app_assoc. reflexivity. }
  assert (LG : length g = length r) by (rewrite <- L, Eg, Es, !app_length; reflexivity).
  rewrite R. split; [constructor; cbn [ratios segs]|].
  - reflexivity.
  - rewrite rebalance_len. exact LG.
  - exact P.
  - apply rebalance_within. symmetry; exact LG.
  - apply rebalance_prio. intros i g' x G I. rewrite Eg in G.
    destruct (Nat.lt_trichotomy i (length a)) as [X|[X|X]].
    + rewrite nth_error_app1 in G by exact X. apply (PR i g' x); [|exact I]. rewrite Es, nth_error_app1 by exact X. exact G.
    + subst i. rewrite nth_error_app2, Nat.sub_diag in G by lia. cbn in G. injection G as <-.
      apply in_app_or in I as [I|[<-|[]]]; [|cbn; lia].
      apply (PR (length a) m x); [|exact I]. rewrite Es, nth_error_app2, Nat.sub_diag by lia. reflexivity.
    + rewrite nth_error_app2 in G by lia. apply (PR i g' x); [|exact I]. rewrite Es, nth_error_app2 by lia.
      destruct (i - length a) eqn:D; [lia|]. exact G.
  - rewrite rebalance_concat, Cg. apply sorted_insert; [rewrite <- C; exact O| |].
    + intros y Y. unfold okOrder. cbn. rewrite C in T. rewrite Forall_forall in T. specialize (T y ltac:(apply in_or_app; left; exact Y)). lia.
    + intros y Y. unfold okOrder. cbn. apply in_concat in Y as (g' & G' & I'). apply In_nth_error in G' as (j & J).
      assert (p < gprio y); [|lia]. assert (p + S j <= gprio y); [|lia]. apply (PR _ g' y); [|exact I'].
      rewrite Es, nth_error_app2 by lia. replace (p + S j - length a) with (S j) by lia. exact J.
  - rewrite rebalance_concat, Cg. rewrite C in T. apply Forall_app in T as [T1 T2]. apply Forall_app. split.
    + eapply Forall_impl; [|exact T1]. cbn. intros; lia.
    + constructor; [cbn; lia|]. eapply Forall_impl; [|exact T2]. cbn. intros; lia.
  - cbn [segs]. rewrite rebalance_concat, Cg, C. apply Permutation_sym, Permutation_middle.
Qed.
Lemma evict_inv r t s : sinv r t s ->
  (concat (segs s) = [] /\ sfifoEvict s = (s, None)) \/
  (exists s' x, sfifoEvict s = (s', Some x) /\ concat (segs s) = x :: concat (segs s') /\ sinv r t s').
Proof.
  intros [R L P W PR O T]. destruct (concat (segs s)) as [|x0 l0] eqn:C.
  - left. split; [reflexivity|]. unfold sfifoEvict. destruct (segs s) as [|[|x g] rest] eqn:E; try reflexivity. discriminate.
  - right. destruct (lowest_nonempty r (segs s) ltac:(lia) P W ltac:(congruence)) as (x & g & rest & E).
    unfold sfifoEvict. rewrite E. eexists _, x. split; [reflexivity|].
    assert (CC : concat (segs s) = x :: concat (g :: rest)) by (rewrite E; reflexivity).
    rewrite <- C in O, T. split; [cbn [segs]; rewrite rebalance_concat; rewrite <- C; exact CC|].
    rewrite CC in O, T. inversion O; inversion T; subst.
    constructor; cbn [ratios segs].
    + reflexivity.
    + rewrite rebalance_len. rewrite <- L, E. reflexivity.
    + exact P.
    + apply rebalance_within. rewrite <- L, E. reflexivity.
    + apply rebalance_prio. intros [|i] g' y G I; [lia|]. apply (PR (S i) g' y); [|exact I]. rewrite E. exact G.
    + rewrite rebalance_concat. assumption.
    + rewrite rebalance_concat. assumption.
Qed.
Lemma reset_inv r t s : sinv r t s -> sinv r t (sfifoReset s) /\ concat (segs (sfifoReset s)) = [].
Proof.
  intros [R L P W PR O T]. unfold sfifoReset. rewrite R. split; [|cbn; apply concat_nils].
  apply nils_inv; [exact P|rewrite map_length; exact L|]. intros g G. apply in_map_iff in G as (? & <- & _). reflexivity.
Qed.

(** labels (track times) increase strictly along the calls, starting at [t] *)
Fixpoint labelled (t : nat) (cs : list scall) : Prop :=
  match cs with
  | [] => True
  | STrack _ _ now :: r => t <= now /\ labelled (S now) r
  | _ :: r => labelled t r
  end.
Definition noReset (c : scall) : Prop := match c with SReset => False | _ => True end.

Lemma sfifo_run r : forall cs t s, sinv r t s -> Forall (slegal (length r)) cs -> labelled t cs ->
  exists s' os t', sfifoCalls s cs = Some (s', os) /\ sinv r t' s' /\
    (Forall noReset cs -> Permutation (concat (segs s) ++ trackedOf cs) (evictedOf os ++ concat (segs s'))).
Proof.
  induction cs as [|c cs IH]; intros t s I LG LB.
  - exists s, [], t. split; [reflexivity|]. split; [exact I|]. intros _. cbn. rewrite app_nil_r. apply Permutation_refl.
  - inversion LG as [|? ? Lc Ls]; subst. destruct c as [rg p now| |]; cbn [labelled] in LB; cbn [sfifoCalls sfifoCall].
    + destruct LB as [L1 L2]. destruct (track_inv r t s rg p now I Lc L1) as (s1 & E & I1 & P1). rewrite E. cbn [option_map].
      destruct (IH _ _ I1 Ls L2) as (s' & os & t' & E' & I' & P'). rewrite E'. exists s', (None :: os), t'.
      split; [reflexivity|]. split; [exact I'|]. intros NR. inversion NR; subst. cbn [trackedOf evictedOf].
      specialize (P' ltac:(assumption)). eapply Permutation_trans; [|exact P'].
      eapply Permutation_trans; [apply Permutation_sym, Permutation_middle|].
      change (mkSNode rg now p :: concat (segs s) ++ trackedOf cs) with ((mkSNode rg now p :: concat (segs s)) ++ trackedOf cs).
      apply Permutation_app_tail. apply Permutation_sym; exact P1.
    + destruct (evict_inv r t s I) as [[C E]|(s1 & x & E & C & I1)]; rewrite E.
      * destruct (IH _ _ I Ls LB) as (s' & os & t' & E' & I' & P'). rewrite E'. exists s', (None :: os), t'.
        split; [reflexivity|]. split; [exact I'|]. intros NR. inversion NR; subst. cbn. apply P'; assumption.
      * destruct (IH _ _ I1 Ls LB) as (s' & os & t' & E' & I' & P'). rewrite E'. exists s', (Some x :: os), t'.
        split; [reflexivity|]. split; [exact I'|]. intros NR. inversion NR; subst. cbn. rewrite C. cbn. constructor. apply P'; assumption.
    + destruct (reset_inv r t s I) as [I1 C]. destruct (IH _ _ I1 Ls LB) as (s' & os & t' & E' & I' & P'). rewrite E'.
      exists s', (None :: os), t'. split; [reflexivity|]. split; [exact I'|]. intros NR. inversion NR; subst. contradiction.
Qed.
