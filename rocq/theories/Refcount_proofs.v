(** Proofs for C01: bit-level lemmas and the field refinement. *)
From Verif Require Import Bytes Refcount_model Refcount_spec.
Open Scope N_scope.

Lemma bitMask_eq b : b < 32 -> bitMask b = 2 ^ b.
Proof.
  intros H. unfold bitMask, wrap32. rewrite N.shiftl_1_l, N.mod_small; auto.
  change two32 with (2 ^ 32). apply N.pow_lt_mono_r; lia.
Qed.

Lemma bitSetIn_testbit w b : b < 32 -> bitSetIn w b = N.testbit w b.
Proof.
  intros H. unfold bitSetIn. rewrite bitMask_eq by auto.
  destruct (N.testbit w b) eqn:T.
  - destruct (N.eqb_spec (N.land w (2 ^ b)) 0) as [E|E]; auto.
    exfalso. assert (X : N.testbit (N.land w (2 ^ b)) b = true).
    { rewrite N.land_spec, T, N.pow2_bits_true. reflexivity. }
    rewrite E, N.bits_0 in X. discriminate.
  - replace (N.land w (2 ^ b)) with 0; auto.
    symmetry. apply N.bits_inj. intros i. rewrite N.bits_0, N.land_spec.
    destruct (N.eq_dec b i) as [<-|n].
    + now rewrite T.
    + rewrite N.pow2_bits_false by auto. apply andb_false_r.
Qed.

Lemma acc_eq w : N.land w kAccessRefMask = w mod 262144.
Proof. change kAccessRefMask with (N.ones 18). now rewrite N.land_ones. Qed.
Lemma refmask_eq w : N.land w kRefMask = w mod 2097152.
Proof. change kRefMask with (N.ones 21). now rewrite N.land_ones. Qed.

Lemma lor_testbit w b i : b < 32 ->
  N.testbit (N.lor w (bitMask b)) i = if i =? b then true else N.testbit w i.
Proof.
  intros H. rewrite bitMask_eq, N.lor_spec by auto.
  destruct (N.eqb_spec i b) as [->|n].
  - rewrite N.pow2_bits_true. apply orb_true_r.
  - rewrite N.pow2_bits_false by auto. apply orb_false_r.
Qed.

Lemma notMask_testbit b i : b < 32 -> i < 32 ->
  N.testbit (notMask (bitMask b)) i = negb (i =? b).
Proof.
  intros H Hi. rewrite bitMask_eq by auto. unfold notMask.
  assert (E : maxValue - 2 ^ b = N.ldiff maxValue (2 ^ b)).
  { apply N.sub_nocarry_ldiff. apply N.bits_inj. intros j. rewrite N.ldiff_spec, N.bits_0.
    destruct (N.eq_dec b j) as [<-|n].
    - rewrite N.pow2_bits_true. change maxValue with (N.ones 32).
      rewrite N.ones_spec_low by auto. reflexivity.
    - rewrite N.pow2_bits_false by auto. reflexivity. }
  rewrite E, N.ldiff_spec. change maxValue with (N.ones 32). rewrite N.ones_spec_low by auto.
  destruct (N.eqb_spec i b) as [->|n].
  - now rewrite N.pow2_bits_true.
  - now rewrite N.pow2_bits_false by auto.
Qed.

Lemma testbit_high w i : w < two32 -> 32 <= i -> N.testbit w i = false.
Proof.
  intros H Hi. destruct (N.eq_dec w 0) as [->|n]; [apply N.bits_0|].
  apply N.bits_above_log2. apply N.lt_le_trans with 32; auto.
  apply N.log2_lt_pow2; [lia|]. exact H.
Qed.

Lemma land_not_testbit w b i : b < 32 -> w < two32 ->
  N.testbit (N.land w (notMask (bitMask b))) i = if i =? b then false else N.testbit w i.
Proof.
  intros H Hw. rewrite N.land_spec. destruct (N.lt_ge_cases i 32) as [L|L].
  - rewrite notMask_testbit by auto. destruct (i =? b); simpl; [apply andb_false_r|apply andb_true_r].
  - rewrite (testbit_high w) by auto. simpl.
    destruct (N.eqb_spec i b); [lia|auto].
Qed.

Lemma lt32_bits w : (forall i, 32 <= i -> N.testbit w i = false) -> w < two32.
Proof.
  intros H. replace w with (w mod 2 ^ 32).
  - change two32 with (2 ^ 32). apply N.mod_lt. discriminate.
  - apply N.bits_inj. intros i. destruct (N.lt_ge_cases i 32).
    + now rewrite N.mod_pow2_bits_low.
    + rewrite N.mod_pow2_bits_high by auto. symmetry. auto.
Qed.

Lemma lor_lt w b : b < 32 -> w < two32 -> N.lor w (bitMask b) < two32.
Proof.
  intros H Hw. apply lt32_bits. intros i Hi. rewrite lor_testbit by auto.
  destruct (N.eqb_spec i b); [lia|]. now apply testbit_high.
Qed.
Lemma land_lt w b : b < 32 -> w < two32 -> N.land w (notMask (bitMask b)) < two32.
Proof.
  intros H Hw. apply lt32_bits. intros i Hi. rewrite land_not_testbit by auto.
  destruct (N.eqb_spec i b); [lia|]. now apply testbit_high.
Qed.

Lemma low_bits_mod w w' : (forall i, i < 18 -> N.testbit w i = N.testbit w' i) ->
  w mod 262144 = w' mod 262144.
Proof.
  intros H. change 262144 with (2 ^ 18). apply N.bits_inj. intros i.
  destruct (N.lt_ge_cases i 18).
  - now rewrite !N.mod_pow2_bits_low by auto; auto.
  - now rewrite !N.mod_pow2_bits_high by auto.
Qed.

Lemma lor_mod w b : 18 <= b < 32 -> N.lor w (bitMask b) mod 262144 = w mod 262144.
Proof.
  intros H. apply low_bits_mod. intros i Hi. rewrite lor_testbit by lia.
  destruct (N.eqb_spec i b); [lia|auto].
Qed.
Lemma land_mod w b : 18 <= b < 32 -> w < two32 ->
  N.land w (notMask (bitMask b)) mod 262144 = w mod 262144.
Proof.
  intros H Hw. apply low_bits_mod. intros i Hi. rewrite land_not_testbit by (auto; lia).
  destruct (N.eqb_spec i b); [lia|auto].
Qed.

Lemma testbit_div w w' i : w / 262144 = w' / 262144 -> 18 <= i -> N.testbit w i = N.testbit w' i.
Proof.
  intros H Hi. change 262144 with (2 ^ 18) in H.
  replace i with ((i - 18) + 18) by lia. rewrite <- !N.div_pow2_bits. now rewrite H.
Qed.

Lemma inc_facts w : w < two32 -> w mod 262144 <> 262143 ->
  wrap32 (w + 1) < two32 /\ wrap32 (w + 1) mod 262144 = w mod 262144 + 1
  /\ wrap32 (w + 1) / 262144 = w / 262144.
Proof.
  unfold wrap32, two32. intros H Ha.
  assert (w + 1 < 4294967296) by lia.
  rewrite (N.mod_small (w + 1)) by auto. lia.
Qed.

Lemma dec_facts w : w < two32 -> w mod 262144 <> 0 ->
  wrap32 (w + (two32 - 1)) < two32 /\ wrap32 (w + (two32 - 1)) mod 262144 = w mod 262144 - 1
  /\ wrap32 (w + (two32 - 1)) / 262144 = w / 262144.
Proof.
  unfold wrap32, two32. intros H Ha.
  assert (w <> 0) by (intros ->; apply Ha; reflexivity).
  replace (w + (4294967296 - 1)) with ((w - 1) + 1 * 4294967296) by lia.
  rewrite N.mod_add by discriminate. rewrite (N.mod_small (w - 1)) by lia. lia.
Qed.

Lemma refcode_view w : w mod 2097152 = ref_code (view w).
Proof.
  unfold ref_code, view; cbn [refs marks].
  change (18 + 0) with 18. change (18 + 1) with 19. change (18 + 2) with 20.
  assert (T : forall i, N.b2n (N.testbit w i) = (w / 2 ^ i) mod 2) by (intros; apply N.testbit_spec').
  rewrite !T. change (2 ^ 18) with 262144. change (2 ^ 19) with 524288. change (2 ^ 20) with 1048576.
  lia.
Qed.

Lemma refcode_same v v' : same_state v v' -> ref_code v = ref_code v'.
Proof.
  intros [H1 H2]. unfold ref_code. rewrite H1, !H2 by lia. reflexivity.
Qed.

(** The master lemma of C01. *)
Lemma apply_refines_l o w : w < two32 -> pre o (view w) ->
  fst (apply o w) < two32 /\
  same_state (view (fst (apply o w))) (fst (spec_apply o (view w))) /\
  snd (apply o w) = snd (spec_apply o (view w)).
Proof.
  intros Hw Hp. unfold apply, attemptOf.
  rewrite acc_eq. change kLinked with 18. change kExclusive with 20.
  rewrite !bitSetIn_testbit by lia. change kAccessRefMask with 262143.
  assert (Same : same_state (view w) (view w)) by (split; auto).
  destruct o; cbn [spec_apply].
  - (* inc *)
    change (refs (view w)) with (w mod 262144). change max_refs with 262143.
    change (marks (view w) m_exclusive) with (N.testbit w 20).
    destruct (N.eqb_spec (w mod 262144) 262143) as [E|E]; [simpl; auto|].
    destruct (N.testbit w 20) eqn:X; [simpl; auto|].
    destruct (inc_facts w Hw E) as (A & B & C).
    simpl fst; simpl snd. split; [auto|split; [|auto]]. split; [exact B|].
    intros m Hm. cbn [view marks set_refs]. apply testbit_div; [auto|lia].
  - (* dec *)
    change (refs (view w)) with (w mod 262144).
    destruct (N.eqb_spec (w mod 262144) 0) as [E|E]; [simpl; auto|].
    destruct (dec_facts w Hw E) as (A & B & C). cbv zeta.
    assert (S : same_state (view (wrap32 (w + (two32 - 1)))) (set_refs (view w) (w mod 262144 - 1))).
    { split; [exact B|]. intros m Hm. cbn [view marks set_refs]. apply testbit_div; [auto|lia]. }
    cbn [fst snd]. split; [auto|split; [auto|]]. f_equal. rewrite refmask_eq, refcode_view.
    now apply refcode_same.
  - (* markForEviction *)
    change (marks (view w) m_linked) with (N.testbit w 18).
    change (marks (view w) m_exclusive) with (N.testbit w 20).
    change (refs (view w)) with (w mod 262144).
    destruct (N.testbit w 18) eqn:L; [|simpl; auto]. cbn [negb].
    destruct (N.testbit w 20) eqn:X; [simpl; auto|].
    destruct (N.eqb_spec (w mod 262144) 0) as [E|E]; [|simpl; auto].
    cbn [negb fst snd]. split; [apply lor_lt; [lia|auto]|split; [|auto]].
    split; [apply lor_mod; lia|]. intros m Hm. cbn [view marks set_mark].
    rewrite lor_testbit by lia. unfold m_exclusive.
    destruct (N.eqb_spec (18 + m) 20), (N.eqb_spec m 2); auto; lia.
  - (* unmarkForEviction *)
    assert (S : same_state (view (N.land w (notMask (bitMask 20)))) (set_mark (view w) m_exclusive false)).
    { split; [apply land_mod; auto; lia|]. intros m Hm. cbn [view marks set_mark].
      rewrite land_not_testbit by (auto; lia). unfold m_exclusive.
      destruct (N.eqb_spec (18 + m) 20), (N.eqb_spec m 2); auto; lia. }
    cbn [fst snd]. split; [apply land_lt; auto; lia|split; [auto|]].
    f_equal. rewrite refmask_eq, refcode_view. now apply refcode_same.
  - (* markMoving *)
    change (marks (view w) m_linked) with (N.testbit w 18).
    change (marks (view w) m_exclusive) with (N.testbit w 20).
    change (refs (view w)) with (w mod 262144).
    destruct (N.ltb_spec 0 (w mod 262144)) as [E|E];
      destruct (N.eqb_spec (w mod 262144) 0) as [E'|E']; try lia.
    + simpl. auto.
    + cbn [orb andb]. destruct (N.testbit w 18) eqn:L; [|simpl; auto].
      destruct (N.testbit w 20) eqn:X; [simpl; auto|]. cbn [negb orb andb fst snd].
      assert (E2 : w mod 262144 <> 262143) by lia.
      destruct (inc_facts w Hw E2) as (A & B & C).
      split; [apply lor_lt; auto; lia|split; [|auto]].
      split.
      * cbn [view refs set_mark set_refs]. rewrite lor_mod by lia. lia.
      * intros m Hm. cbn [view marks set_mark set_refs].
        rewrite lor_testbit by lia. unfold m_exclusive.
        rewrite (testbit_div (wrap32 (w + 1)) w) by (auto; lia).
        destruct (N.eqb_spec (18 + m) 20), (N.eqb_spec m 2); auto; lia.
  - (* unmarkMoving *)
    cbn [pre view refs] in Hp.
    assert (E : w mod 262144 <> 0) by lia.
    destruct (dec_facts w Hw E) as (A & B & C).
    assert (S : same_state (view (N.land (wrap32 (w + (two32 - 1))) (notMask (bitMask 20))))
                  (set_mark (set_refs (view w) (refs (view w) - 1)) m_exclusive false)).
    { split; [cbn [view refs set_mark set_refs]; rewrite land_mod by (auto; lia); exact B|].
      intros m Hm. cbn [view marks set_mark set_refs].
      rewrite land_not_testbit by (auto; lia). unfold m_exclusive.
      rewrite (testbit_div (wrap32 (w + (two32 - 1))) w) by (auto; lia).
      destruct (N.eqb_spec (18 + m) 20), (N.eqb_spec m 2); auto; lia. }
    cbn [fst snd]. split; [apply land_lt; auto; lia|split; [auto|]].
    f_equal. rewrite refmask_eq, refcode_view. now apply refcode_same.
  - (* markForEvictionWhenMoving *)
    cbn [pre view refs] in Hp.
    assert (E : w mod 262144 <> 0) by lia.
    destruct (dec_facts w Hw E) as (A & B & C).
    cbn [fst snd]. split; [auto|split; [|auto]]. split; [exact B|].
    intros m Hm. cbn [view marks set_refs]. apply testbit_div; [auto|lia].
  - cbn [pre] in Hp. cbn [fst snd]. split; [apply lor_lt; auto; lia|split; [|auto]].
    split; [apply lor_mod; lia|]. intros m Hm. cbn [view marks set_mark].
    rewrite lor_testbit by lia.
    destruct (N.eqb_spec (18 + m) b), (N.eqb_spec m (b - 18)); auto; lia.
  - cbn [pre] in Hp. cbn [fst snd]. split; [apply land_lt; auto; lia|split; [|auto]].
    split; [apply land_mod; auto; lia|]. intros m Hm. cbn [view marks set_mark].
    rewrite land_not_testbit by (auto; lia).
    destruct (N.eqb_spec (18 + m) b), (N.eqb_spec m (b - 18)); auto; lia.
Qed.

(** Observers in terms of the fields. *)
Lemma accessors_l w :
  isInMMContainer w = marks (view w) 0 /\ isAccessible w = marks (view w) 1 /\
  (forall f, f < 11 -> isFlagSet w (21 + f) = marks (view w) (3 + f)) /\
  isMarkedForEviction w = (marks (view w) 2 && (refs (view w) =? 0))%bool /\
  isMoving w = (marks (view w) 2 && negb (refs (view w) =? 0))%bool /\
  isDrained w = (negb (marks (view w) 0) && negb (marks (view w) 1) && negb (marks (view w) 2)
                 && (refs (view w) =? 0))%bool /\
  getAccessRef w = (if marks (view w) 2 then refs (view w) - 1 else refs (view w)).
Proof.
  unfold isInMMContainer, isAccessible, isFlagSet, isMarkedForEviction, isMoving, isDrained,
    getAccessRef, getRefWithAccessAndAdmin.
  rewrite acc_eq, refmask_eq. change kLinked with 18. change kAccessible with 19.
  change kExclusive with 20. rewrite !bitSetIn_testbit by lia.
  split; [reflexivity|]. split; [reflexivity|]. split.
  { intros f Hf. rewrite bitSetIn_testbit by lia. cbn [view marks]. f_equal. lia. }
  split; [reflexivity|]. split; [reflexivity|]. split.
  - rewrite refcode_view. unfold ref_code. cbn [view refs marks].
    change (18 + 0) with 18. change (18 + 1) with 19. change (18 + 2) with 20.
    destruct (N.testbit w 18), (N.testbit w 19), (N.testbit w 20); cbn [N.b2n];
    destruct (N.eqb_spec (w mod 262144) 0);
    cbn [negb andb]; try (apply N.eqb_neq; lia); try (apply N.eqb_eq; lia).
  - cbn [view refs marks]. change (18 + 2) with 20.
    destruct (N.testbit w 20); cbn [andb]; [|reflexivity].
    destruct (N.leb_spec 1 (w mod 262144)); lia.
Qed.
