(** Proofs for C24. *)
From Coq Require FinFun.
From Verif Require Import Bytes CountMin_model CountMin_spec.

Section P.
Variable cmax : N.
Variable h : N -> N -> N.
Hypothesis cmax_pos : (0 < cmax)%N.

Definition ok (s : sketch) : Prop :=
  (width s * depth s < two32)%N /\ tsize s = (width s * depth s)%N /\ (0 < width s)%N /\ (0 < depth s)%N /\
  forall j, (cell s j <= cmax)%N.
Definition idx (s : sketch) (k i : N) : N := (i * width s + h i k mod width s)%N.

Lemma getIndex_eq s i k : ok s -> (i < depth s)%N -> getIndex h s i k = idx s k i /\ (idx s k i < tsize s)%N.
Proof.
  intros (B & T & W & D & _) I. unfold getIndex, idx, wrap32, wrap64.
  assert (M : (h i k mod width s < width s)%N) by (apply N.mod_lt; lia).
  assert (L : (i * width s + h i k mod width s < width s * depth s)%N) by nia.
  rewrite (N.mod_small (i * width s)) by (unfold two32 in *; nia).
  rewrite N.mod_small by (unfold two32, two64 in *; lia).
  split; [reflexivity|]. rewrite T. exact L.
Qed.
Lemma idx_inj s k i j : ok s -> idx s k i = idx s k j -> i = j.
Proof.
  intros (B & T & W & D & _) E. unfold idx in E.
  assert (M : (h i k mod width s < width s)%N) by (apply N.mod_lt; lia).
  assert (M' : (h j k mod width s < width s)%N) by (apply N.mod_lt; lia).
  set (x := (h i k mod width s)%N) in *. set (y := (h j k mod width s)%N) in *. clearbody x y.
  destruct (N.lt_trichotomy i j) as [L|[L|L]]; auto; exfalso; nia.
Qed.

Lemma rows_in s i : In i (rows s) <-> (i < depth s)%N.
Proof.
  unfold rows. rewrite in_map_iff. split.
  - intros (x & <- & X). apply in_seq in X. lia.
  - intros H. exists (N.to_nat i). split; [apply N2Nat.id|]. apply in_seq. lia.
Qed.
Lemma rows_nodup s : NoDup (rows s).
Proof. apply FinFun.Injective_map_NoDup; [intros a b; apply Nat2N.inj|apply seq_NoDup]. Qed.

Definition same (s s' : sketch) : Prop := width s' = width s /\ depth s' = depth s /\ tsize s' = tsize s.
Definition touched (s : sketch) (k : N) (is : list N) (j : N) : bool := existsb (fun i => (idx s k i =? j)%N) is.

Lemma touched_spec s k is j : touched s k is j = true <-> exists i, In i is /\ idx s k i = j.
Proof.
  unfold touched. rewrite existsb_exists. split; intros (i & H1 & H2); exists i; split; auto;
    apply N.eqb_eq; auto.
Qed.

(** A loop over distinct rows that updates each row's own cell by [g]. *)
Lemma loop_spec (f : sketch -> N -> option sketch) g k :
  (forall v, (v <= cmax)%N -> (g v <= cmax)%N) ->
  (forall s i, ok s -> (i < depth s)%N -> exists s', f s i = Some s' /\ same s s' /\
     forall j, cell s' j = if (j =? idx s k i)%N then g (cell s j) else cell s j) ->
  forall is s, ok s -> NoDup is -> (forall i, In i is -> (i < depth s)%N) ->
  exists s', loop f s is = Some s' /\ ok s' /\ same s s' /\
    forall j, cell s' j = if touched s k is j then g (cell s j) else cell s j.
Proof.
  intros G F. induction is as [|i r IH]; intros s O ND B.
  - exists s. repeat split; auto; try apply O.
  - inversion ND; subst. destruct (F s i O (B i (or_introl eq_refl))) as (s1 & E & (S1 & S2 & S3) & C).
    assert (O1 : ok s1).
    { destruct O as (o1 & o2 & o3 & o4 & o5). unfold ok. rewrite S1, S2, S3. repeat split; auto.
      intros j. rewrite C. destruct (j =? idx s k i)%N; auto. }
    destruct (IH s1 O1 H2) as (s2 & E2 & O2 & (T1 & T2 & T3) & C2).
    { intros x X. rewrite S2. apply B. right; auto. }
    exists s2. cbn [loop]. rewrite E. split; [exact E2|]. split; [exact O2|].
    split; [unfold same; repeat split; congruence|].
    intros j. rewrite C2. assert (TE : touched s1 k r j = touched s k r j).
    { unfold touched, idx. rewrite S1. reflexivity. }
    rewrite TE, C. cbn [touched existsb].
    destruct (N.eqb_spec j (idx s k i)) as [->|NE].
    + rewrite N.eqb_refl. cbn [orb]. destruct (touched s k r (idx s k i)) eqn:X; [|reflexivity].
      exfalso. apply touched_spec in X as (i' & I' & X). apply idx_inj in X; auto. subst. contradiction.
    + destruct (N.eqb_spec (idx s k i) j); [congruence|]. reflexivity.
Qed.

Lemma increment_ok s k : ok s -> exists s', increment cmax h s k = Some s' /\ ok s' /\ same s s' /\
  forall j, cell s' j = if touched s k (rows s) j then N.min cmax (cell s j + 1) else cell s j.
Proof.
  intros O. unfold increment. apply (loop_spec (incRow cmax h k) (fun v => N.min cmax (v + 1)) k); auto.
  - intros v H. lia.
  - clear s O. intros s i O I. destruct (getIndex_eq s i k O I) as [E B].
    unfold incRow. rewrite E. unfold rdCell. assert (L : (idx s k i <? tsize s)%N = true) by (apply N.ltb_lt; auto).
    rewrite L. destruct (N.ltb_spec (cell s (idx s k i)) cmax) as [C|C].
    + unfold wrCell. rewrite L. eexists. split; [reflexivity|].
      split; [destruct (_ =? cmax)%N; repeat split|].
      intros j. assert (G : forall x, cell (if (cell s (idx s k i) + 1 =? cmax)%N then setSat x (wrap64 (saturated x + 1)) else x) j = cell x j).
      { intros x. destruct (_ =? cmax)%N; reflexivity. }
      rewrite G. cbn. destruct (N.eqb_spec j (idx s k i)); [subst; lia|reflexivity].
    + eexists. split; [reflexivity|]. split; [repeat split|]. intros j.
      destruct (N.eqb_spec j (idx s k i)); [|reflexivity]. subst.
      pose proof O as (_ & _ & _ & _ & C'). specialize (C' (idx s k i)). lia.
  - apply rows_nodup.
  - intros i. apply rows_in.
Qed.

Lemma minRows_ok s k : ok s -> forall is a, (forall i, In i is -> (i < depth s)%N) ->
  exists m, minRows h s k a is = Some m /\ (m <= a)%N /\ (forall i, In i is -> (m <= cell s (idx s k i))%N) /\
    (m = a \/ exists i, In i is /\ m = cell s (idx s k i)).
Proof.
  intros O. induction is as [|i r IH]; intros a B.
  - exists a. split; [reflexivity|]. split; [lia|]. split; [intros i []|auto].
  - cbn [minRows]. destruct (getIndex_eq s i k O (B i (or_introl eq_refl))) as [E L].
    rewrite E. unfold rdCell. rewrite (proj2 (N.ltb_lt _ _) L).
    destruct (IH (N.min a (cell s (idx s k i)))) as (m & M1 & M2 & M3 & M4).
    { intros x X. apply B. right; auto. }
    exists m. split; [exact M1|]. split; [lia|]. split.
    + intros x [<-|X]; [lia|auto].
    + destruct M4 as [M4|(x & X & M4)]; [|right; exists x; split; [right; auto|auto]].
      destruct (N.min_spec a (cell s (idx s k i))) as [[_ Q]|[_ Q]]; rewrite Q in M4; [auto|].
      right. exists i. split; [left; auto|auto].
Qed.
Lemma getCount_ok s k : ok s -> exists m, getCount cmax h s k = Some m /\ (m <= cmax)%N /\
  (forall i, (i < depth s)%N -> (m <= cell s (idx s k i))%N) /\
  (exists i, (i < depth s)%N /\ m = cell s (idx s k i)).
Proof.
  intros O. unfold getCount.
  destruct (minRows_ok s k O (rows s) cmax) as (m & M1 & M2 & M3 & M4); [intros i; apply rows_in|].
  rewrite M1. pose proof O as (_ & _ & _ & D & C). destruct (N.eqb_spec (depth s) 0); [lia|].
  exists m. split; [reflexivity|]. split; [auto|]. split; [intros i I; apply M3, rows_in; auto|].
  destruct M4 as [->|(i & I & ->)].
  - exists 0%N. split; [lia|]. pose proof (M3 0%N) as Q. rewrite rows_in in Q. specialize (Q D). specialize (C (idx s k 0)). lia.
  - exists i. split; [apply rows_in; auto|auto].
Qed.

Lemma resetCount_ok s k m : ok s -> getCount cmax h s k = Some m ->
  exists s', resetCount cmax h s k = Some s' /\ ok s' /\ same s s' /\
  forall j, cell s' j = if touched s k (rows s) j then (cell s j - m)%N else cell s j.
Proof.
  intros O G. unfold resetCount. rewrite G.
  destruct (getCount_ok s k O) as (m' & G' & M1 & M2 & _). rewrite G in G'. inversion G'; subst m'.
  (* the subtraction does not wrap on the touched cells, but [loop_spec] wants a total g *)
  pose (g := fun v : N => ((v + (cmax + 1) - m) mod (cmax + 1))%N).
  destruct (loop_spec (subRow cmax h k m) g k) with (is := rows s) (s := s) as (s' & E & O' & S' & C'); auto.
  - intros v V. unfold g. pose proof (N.mod_lt (v + (cmax + 1) - m) (cmax + 1)). lia.
  - clear - cmax_pos. intros s i O I. destruct (getIndex_eq s i k O I) as [E B].
    unfold subRow. rewrite E. unfold rdCell, wrCell. rewrite (proj2 (N.ltb_lt _ _) B).
    eexists. split; [reflexivity|]. split; [repeat split|]. intros j. cbn.
    destruct (N.eqb_spec j (idx s k i)); [subst; reflexivity|reflexivity].
  - apply rows_nodup.
  - intros i. apply rows_in.
  - exists s'. split; [exact E|]. split; [exact O'|]. split; [exact S'|]. intros j. rewrite C'.
    destruct (touched s k (rows s) j) eqn:T; [|reflexivity].
    apply touched_spec in T as (i & I & <-). apply rows_in in I. specialize (M2 i I).
    pose proof O as (_ & _ & _ & _ & CM). specialize (CM (idx s k i)). unfold g.
    replace (cell s (idx s k i) + (cmax + 1) - m)%N with ((cell s (idx s k i) - m) + 1 * (cmax + 1))%N by lia.
    rewrite N.mod_add by lia. apply N.mod_small. lia.
Qed.

(** The history invariant. *)
Definition inv (s : sketch) (L : N -> N) (H : N) : Prop :=
  ok s /\ (forall k i, (i < depth s)%N -> (L k <= cell s (idx s k i))%N) /\
  (forall j, (j < tsize s)%N -> (cell s j <= H)%N).

Lemma touched_row s k i : (i < depth s)%N -> touched s k (rows s) (idx s k i) = true.
Proof. intros I. apply touched_spec. exists i. split; [apply rows_in; auto|auto]. Qed.

Lemma exec_ok s c L H : inv s L H -> decaying c ->
  exists s', exec cmax h s c = Some s' /\ inv s' (fun k => lo cmax k (L k) [c]) (hi H [c]).
Proof.
  intros (O & LO & HI) D. destruct c as [k'|k'|d|]; cbn [exec lo hi].
  - destruct (increment_ok s k' O) as (s' & E & O' & (S1 & S2 & S3) & C). exists s'. split; [exact E|].
    split; [exact O'|]. split.
    + intros k i I. rewrite S2 in I. unfold idx. rewrite S1. fold (idx s k i). rewrite C.
      specialize (LO k i I). pose proof O as (_ & _ & _ & _ & CM). specialize (CM (idx s k i)).
      destruct (N.eqb_spec k' k).
      * subst. rewrite touched_row by auto. lia.
      * destruct (touched _ _ _ _); lia.
    + intros j J. rewrite S3 in J. rewrite C. specialize (HI j J). destruct (touched _ _ _ _); lia.
  - destruct (getCount_ok s k' O) as (m & G & _).
    destruct (resetCount_ok s k' m O G) as (s' & E & O' & (_ & _ & S3) & C). exists s'. split; [exact E|].
    split; [exact O'|]. split.
    + intros. lia.
    + intros j J. rewrite S3 in J. rewrite C. specialize (HI j J). destruct (touched _ _ _ _); lia.
  - exists (decay s d). split; [reflexivity|]. destruct D as [D1 D2].
    pose proof O as (o1 & o2 & o3 & o4 & o5).
    assert (W : wrap32 (width s * depth s) = (width s * depth s)%N) by (apply N.mod_small; auto).
    split; [|split].
    + unfold ok. cbn. repeat split; auto. intros j. rewrite W. destruct (_ <? _)%N; [|auto].
      eapply N.le_trans; [apply D1|apply o5].
    + intros k i I. cbn in *. rewrite W. change (idx (decay s d) k i) with (idx s k i).
      destruct (getIndex_eq s i k O I) as [_ B]. rewrite o2 in B. rewrite (proj2 (N.ltb_lt _ _) B).
      apply D2. auto.
    + intros j J. cbn in *. rewrite W. pose proof J as J'. rewrite o2 in J'.
      rewrite (proj2 (N.ltb_lt _ _) J'). apply D2. auto.
  - exists (reset s). split; [reflexivity|].
    pose proof O as (o1 & o2 & o3 & o4 & o5).
    assert (W : wrap32 (width s * depth s) = (width s * depth s)%N) by (apply N.mod_small; auto).
    split; [|split].
    + unfold ok. cbn. repeat split; auto. intros j. rewrite W. destruct (_ <? _)%N; [lia|auto].
    + intros k i I. lia.
    + intros j J. cbn in *. rewrite W. rewrite o2 in J.
      rewrite (proj2 (N.ltb_lt _ _) J). lia.
Qed.

Lemma execs_ok : forall cs s L H, inv s L H -> Forall decaying cs ->
  exists s', execs cmax h s cs = Some s' /\ inv s' (fun k => lo cmax k (L k) cs) (hi H cs).
Proof.
  induction cs as [|c r IH]; intros s L H I D.
  - exists s. split; [reflexivity|exact I].
  - inversion D; subst. destruct (exec_ok s c L H I) as (s1 & E & I1); auto.
    destruct (IH s1 _ _ I1) as (s2 & E2 & I2); auto.
    exists s2. cbn [execs]. rewrite E. split; [exact E2|].
    destruct c; exact I2.
Qed.

Lemma create_inv w d s : create w d = Some s -> (w * d < two32)%N ->
  inv s (fun _ => 0%N) 0.
Proof.
  unfold create. destruct (N.eqb_spec w 0); [discriminate|]. destruct (N.eqb_spec d 0); [discriminate|].
  intros E B. inversion E; subst. unfold inv, ok. cbn.
  assert (W : wrap32 (w * d) = (w * d)%N) by (apply N.mod_small; auto). rewrite W.
  repeat split; try lia; intros; lia.
Qed.

Lemma inv_count s L H k : inv s L H ->
  exists m, getCount cmax h s k = Some m /\ (L k <= m /\ m <= N.min cmax H)%N.
Proof.
  intros (O & LO & HI). destruct (getCount_ok s k O) as (m & G & M1 & M2 & (i & I & ->)).
  eexists. split; [exact G|]. split; [auto|].
  assert (B : (idx s k i < tsize s)%N) by (apply getIndex_eq; auto). specialize (HI _ B). lia.
Qed.

Lemma never_under w d s cs k : create w d = Some s -> (w * d < two32)%N -> Forall decaying cs ->
  exists s' m, execs cmax h s cs = Some s' /\ getCount cmax h s' k = Some m /\
    (lo cmax k 0 cs <= m /\ m <= N.min cmax (hi 0 cs))%N.
Proof.
  intros C B D. destruct (execs_ok cs s _ _ (create_inv w d s C B) D) as (s' & E & I).
  destruct (inv_count s' _ _ k I) as (m & G & M). exists s', m. auto.
Qed.

Lemma reachable_ok w d s cs s' : create w d = Some s -> (w * d < two32)%N -> Forall decaying cs ->
  execs cmax h s cs = Some s' -> ok s'.
Proof.
  intros C B D E. destruct (execs_ok cs s _ _ (create_inv w d s C B) D) as (s1 & E' & I).
  rewrite E in E'. inversion E'; subst. apply I.
Qed.

(** Effects of one call on all keys' counts. *)
Lemma count_mono s s' k m : ok s -> ok s' -> same s s' ->
  getCount cmax h s k = Some m ->
  exists m', getCount cmax h s' k = Some m' /\
   (exists i, (i < depth s)%N /\ m' = cell s' (idx s k i)) /\ (forall i, (i < depth s)%N -> (m' <= cell s' (idx s k i))%N)
   /\ (exists i, (i < depth s)%N /\ m = cell s (idx s k i)) /\ (forall i, (i < depth s)%N -> (m <= cell s (idx s k i))%N).
Proof.
  intros O O' (S1 & S2 & S3) G.
  destruct (getCount_ok s k O) as (m0 & G0 & _ & A & B). rewrite G in G0. inversion G0; subst m0.
  destruct (getCount_ok s' k O') as (m' & G' & _ & A' & B').
  assert (IX : forall i, idx s' k i = idx s k i) by (intros; unfold idx; rewrite S1; auto).
  exists m'. split; [exact G'|]. rewrite S2 in *.
  split; [destruct B' as (i & I & ->); exists i; split; [auto|rewrite IX; auto]|].
  split; [intros i I; specialize (A' i I); rewrite IX in A'; auto|]. auto.
Qed.

Lemma increment_effect s k m : ok s -> getCount cmax h s k = Some m ->
  exists s', increment cmax h s k = Some s' /\ ok s' /\ getCount cmax h s' k = Some (N.min cmax (m + 1)) /\
    forall k' n, getCount cmax h s k' = Some n ->
      exists n', getCount cmax h s' k' = Some n' /\ (n <= n' /\ n' <= n + 1)%N.
Proof.
  intros O G. destruct (increment_ok s k O) as (s' & E & O' & SM & C). exists s'.
  split; [exact E|]. split; [exact O'|]. split.
  - destruct (count_mono s s' k m O O' SM G) as (m' & G' & (i & I & ->) & A' & (j & J & ->) & A).
    rewrite G'. f_equal. rewrite C, touched_row by auto.
    specialize (A' j J). rewrite C, C, !touched_row in A' by auto. specialize (A i I). lia.
  - intros k' n Gn. destruct (count_mono s s' k' n O O' SM Gn) as (n' & G' & (i & I & ->) & A' & (j & J & ->) & A).
    eexists. split; [exact G'|]. rewrite C. specialize (A' j J). specialize (A i I). rewrite C, C in A'. pose proof O as (_ & _ & _ & _ & CM).
    pose proof (CM (idx s k' i)). pose proof (CM (idx s k' j)).
    destruct (touched s k (rows s) (idx s k' i)), (touched s k (rows s) (idx s k' j)); lia.
Qed.

Lemma reset_effect s k m : ok s -> getCount cmax h s k = Some m ->
  exists s', resetCount cmax h s k = Some s' /\ ok s' /\ getCount cmax h s' k = Some 0%N /\
    forall k' n, getCount cmax h s k' = Some n ->
      exists n', getCount cmax h s' k' = Some n' /\ (n - m <= n' /\ n' <= n)%N.
Proof.
  intros O G. destruct (resetCount_ok s k m O G) as (s' & E & O' & SM & C). exists s'.
  split; [exact E|]. split; [exact O'|]. split.
  - destruct (count_mono s s' k m O O' SM G) as (m' & G' & (i & I & ->) & A' & (j & J & ->) & A).
    rewrite G'. f_equal.
    specialize (A' j J). rewrite C, C, !touched_row in A' by auto. rewrite C, touched_row by auto. lia.
  - intros k' n Gn. destruct (count_mono s s' k' n O O' SM Gn) as (n' & G' & (i & I & ->) & A' & (j & J & ->) & A).
    eexists. split; [exact G'|]. rewrite C. specialize (A' j J). specialize (A i I). rewrite C, C in A'.
    destruct (touched s k (rows s) (idx s k' i)), (touched s k (rows s) (idx s k' j)); lia.
Qed.
End P.
