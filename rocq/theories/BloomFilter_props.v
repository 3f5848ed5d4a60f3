(** C23: Bloom filters have no false negatives, are independent, and persist. *)
From Coq Require Import ZifyBool ZifyNat ZifyN.
From Verif Require Import Bytes BloomFilter_model BloomFilter_spec BloomFilter_client BloomFilter_proofs.
Local Open Scope N_scope.

Lemma exact_l comb hint nf nh ht hist : params_ok nf nh ht -> Forall (fop_ok nf) hist ->
  exists f0 f, makeBF hint nf nh ht = Some f0 /\ frun comb f0 hist = Some f /\
    forall idx key, idx < nf -> exists b, couldExist comb f idx key = Some b /\
      (b = true <->
       forall i, i < nh -> exists k, In k (live idx hist)
          /\ comb k (hint i) mod ht = comb key (hint i) mod ht).
Proof.
  intros Hp Hh. destruct (make_ok comb hint nf nh ht Hp) as (f0 & E0 & I0).
  destruct (frun_ok comb f0 nf _ ht [] hist I0 Hh) as (f & E & I & _).
  exists f0, f. split; [assumption|]. split; [assumption|].
  intros idx key Hi. rewrite app_nil_r in I. rewrite (exist_ok comb f nf _ ht hist idx key I Hi).
  eexists. split; [reflexivity|]. rewrite forallb_forall. split.
  - intros H i Hin. specialize (H (hint i)).
    assert (Hin2 : In (hint i) (map (fun i => hint (N.of_nat i)) (seq 0 (N.to_nat nh)))).
    { apply in_map_iff. exists (N.to_nat i). rewrite N2Nat.id. split; [reflexivity|]. apply in_seq. lia. }
    apply H in Hin2. apply existsb_exists in Hin2 as (k & Hk & Ek). exists k. split; [assumption|]. lia.
  - intros H sd Hsd. apply in_map_iff in Hsd as (i & <- & Hin). apply in_seq in Hin.
    apply existsb_exists. destruct (H (N.of_nat i)) as (k & Hk & Ek); [lia|]. exists k.
    split; [assumption|]. lia.
Qed.

(** After any history of set/clear/reset (newest first) on a fresh array of filters, no
    undefined behaviour occurs and filter [idx] answers "could exist" for [key] exactly
    when every one of the nh hash tables has a colliding key among the keys set in [idx]
    itself since it was last cleared: other filters have no influence. *)
Theorem C23_could_exist_exact : forall comb hint nf nh ht hist,
  params_ok nf nh ht -> Forall (fop_ok nf) hist ->
  exists f0 f, makeBF hint nf nh ht = Some f0 /\ frun comb f0 hist = Some f /\
    forall idx key, idx < nf -> exists b, couldExist comb f idx key = Some b /\
      (b = true <->
       forall i, i < nh -> exists k, In k (live idx hist)
          /\ comb k (hint i) mod ht = comb key (hint i) mod ht).
Proof. exact exact_l. Qed.
Print Assumptions C23_could_exist_exact.

Lemma nofn_l comb hint nf nh ht hist f0 f idx key :
  params_ok nf nh ht -> Forall (fop_ok nf) hist ->
  makeBF hint nf nh ht = Some f0 -> frun comb f0 hist = Some f -> idx < nf ->
  In key (live idx hist) -> couldExist comb f idx key = Some true.
Proof.
  intros Hp Hh E0 E Hi Hin. destruct (exact_l comb hint nf nh ht hist Hp Hh) as (f0' & f' & E0' & E' & H).
  rewrite E0 in E0'. inversion E0'; subst f0'. rewrite E in E'. inversion E'; subst f'.
  destruct (H idx key Hi) as (b & Eb & Hb). rewrite Eb. f_equal. apply Hb.
  intros i _. exists key. auto.
Qed.

Theorem C23_no_false_negative : forall comb hint nf nh ht hist f0 f idx key,
  params_ok nf nh ht -> Forall (fop_ok nf) hist ->
  makeBF hint nf nh ht = Some f0 -> frun comb f0 hist = Some f -> idx < nf ->
  In key (live idx hist) -> couldExist comb f idx key = Some true.
Proof. exact nofn_l. Qed.
Print Assumptions C23_no_false_negative.

Lemma empty_l comb hint nf nh ht hist f0 f idx key :
  params_ok nf nh ht -> Forall (fop_ok nf) hist ->
  makeBF hint nf nh ht = Some f0 -> frun comb f0 hist = Some f -> idx < nf ->
  live idx hist = [] -> couldExist comb f idx key = Some false.
Proof.
  intros Hp Hh E0 E Hi Hin. destruct (exact_l comb hint nf nh ht hist Hp Hh) as (f0' & f' & E0' & E' & H).
  rewrite E0 in E0'. inversion E0'; subst f0'. rewrite E in E'. inversion E'; subst f'.
  destruct (H idx key Hi) as (b & Eb & Hb). rewrite Eb. f_equal. destruct b; [|reflexivity].
  destruct (proj1 Hb eq_refl 0) as (k & Hk & _); [apply Hp|]. rewrite Hin in Hk. destruct Hk.
Qed.

(** A cleared (or never used) filter rejects every key. *)
Theorem C23_cleared_rejects_all : forall comb hint nf nh ht hist f0 f idx key,
  params_ok nf nh ht -> Forall (fop_ok nf) hist ->
  makeBF hint nf nh ht = Some f0 -> frun comb f0 hist = Some f -> idx < nf ->
  live idx hist = [] -> couldExist comb f idx key = Some false.
Proof. exact empty_l. Qed.
Print Assumptions C23_cleared_rejects_all.

Lemma persist_l comb hint nf nh ht hist hist2 f0 f g :
  params_ok nf nh ht -> Forall (fop_ok nf) hist -> Forall (fop_ok nf) hist2 ->
  makeBF hint nf nh ht = Some f0 -> frun comb f0 hist = Some f -> frun comb f0 hist2 = Some g ->
  exists h recs, persist f = Some (h, recs) /\ forall more, recover g h (recs ++ more) = ROk f.
Proof.
  intros Hp Hh Hh2 E0 E E2.
  destruct (make_ok comb hint nf nh ht Hp) as (f0' & E0' & I0).
  rewrite E0 in E0'. inversion E0'; subst f0'.
  destruct (frun_ok comb f0 nf _ ht [] hist I0 Hh) as (f' & E' & I & B). rewrite E in E'. inversion E'; subst f'.
  destruct (frun_ok comb f0 nf _ ht [] hist2 I0 Hh2) as (g' & Eg & J & Bg). rewrite E2 in Eg. inversion Eg; subst g'.
  eapply persist_ok; eauto; [reflexivity|destruct Hp as (? & ? & ? & ?); nia|congruence].
Qed.

(** Persisting and recovering (into a filter built with the same parameters, whatever
    its content) reproduces the filter bit for bit, hence every answer; trailing records
    of the stream are left alone. *)
Theorem C23_persist_recover : forall comb hint nf nh ht hist hist2 f0 f g,
  params_ok nf nh ht -> Forall (fop_ok nf) hist -> Forall (fop_ok nf) hist2 ->
  makeBF hint nf nh ht = Some f0 -> frun comb f0 hist = Some f -> frun comb f0 hist2 = Some g ->
  exists h recs, persist f = Some (h, recs) /\ forall more, recover g h (recs ++ more) = ROk f.
Proof. exact persist_l. Qed.
Print Assumptions C23_persist_recover.

(** Finding: recover does not compare the number of hash functions.  A filter saved with
    3 hashes of 2 bits recovers without error into one with 4 hashes of 2 bits (both round
    to one byte), and then answers "cannot exist" for a key that was set. *)
Definition toy_comb (k s : N) : N := (k + s) mod two64.
Definition toy_hint (i : N) : N := i.
Theorem C23_recover_hash_count_refuted :
  exists f0 f g h recs f',
    makeBF toy_hint 1 3 2 = Some f0 /\ set toy_comb f0 0 6 = Some f
    /\ makeBF toy_hint 1 4 2 = Some g
    /\ persistWith 8 f = Some (h, recs) /\ recoverWith 8 g h recs = ROk f'
    /\ couldExist toy_comb f 0 6 = Some true /\ couldExist toy_comb f' 0 6 = Some false.
Proof. do 6 eexists. repeat split; vm_compute; reflexivity. Qed.
Print Assumptions C23_recover_hash_count_refuted.

(** ... and the other way round it writes past the seed vector. *)
Theorem C23_recover_seed_overflow_refuted :
  exists f0 f g h recs,
    makeBF toy_hint 1 4 2 = Some f0 /\ set toy_comb f0 0 6 = Some f
    /\ makeBF toy_hint 1 3 2 = Some g
    /\ persistWith 8 f = Some (h, recs) /\ recoverWith 8 g h recs = RUB.
Proof. do 5 eexists. repeat split; vm_compute; reflexivity. Qed.
Print Assumptions C23_recover_seed_overflow_refuted.

(** Non-vacuity. *)
Definition demo_fops := [FSet 2 5; FClear 1; FSet 0 77; FSet 1 9; FSet 2 1000].
Example C23_demo :
  params_ok 3 2 11 /\ Forall (fop_ok 3) demo_fops /\ live 2 demo_fops = [5; 1000] /\
  (let* f0 := makeBF toy_hint 3 2 11 in let* f := frun toy_comb f0 demo_fops in
   let* a := couldExist toy_comb f 2 1000 in let* b := couldExist toy_comb f 1 9 in
   let* c := couldExist toy_comb f 0 78 in Some (a, b, c)) = Some (true, false, false).
Proof.
  split; [repeat split; reflexivity|]. split; [unfold demo_fops; repeat constructor|].
  split; vm_compute; reflexivity.
Qed.
