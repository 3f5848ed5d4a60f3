(** The invariant holds, and memory is safe. *)
From Coq Require Import List Arith Bool Lia.
Import ListNotations.
From Verif Require Import CCResize_model CCResize_spec CCResize_proofs1.

Section P.
Variable home : nat -> nat.
Hypothesis HR : inRange home.

Lemma view_idle : forall s o, holds o = false -> view home s o.
Proof. intros s o H. unfold view, holds in *. destruct (pc o); try discriminate; exact I. Qed.

Lemma res_base : forall s a m ph b x s', base s -> cur s = Some (a, m, ph) -> resStep home s a m ph b x = Some (Ok s') -> base s'.
Proof.
  intros s a m ph b x s' B Cu E. unfold base in B. rewrite Cu in B.
  destruct B as [B0 [BC [B1 [B2 [B3 [B4 [B5 [B6 B7]]]]]]]].
  pose proof (HR m B2) as HM.
  destruct ph; simpl in E; try tauto;
  repeat match type of E with
       | context [if ?c then _ else _] => destruct c eqn:?
       | context [match ent s ?c with _ => _ end] => destruct (ent s c) eqn:?
       end; apply ok_inj in E; subst s'; unfold base; cbn [cur num pend conf na calls setPend setNum doXor withCur withEnt alloc]; rewrite ?Cu;
  repeat match goal with
    | X : (_ <? _) = false |- _ => apply Nat.ltb_ge in X
    | X : (_ <? _) = true |- _ => apply Nat.ltb_lt in X
    end; try lia;
  try (destruct B7; subst; repeat split; auto; lia).
  destruct B7 as [E1 E2]. repeat split; auto.
  unfold allocTo. rewrite B5, (B6 Heqb0). destruct (Nat.ltb_spec m (Nat.max a m)); lia.
Qed.

Lemma res_rel : forall s a m ph b x s' n o, base s -> cur s = Some (a, m, ph) -> resStep home s a m ph b x = Some (Ok s') ->
  In n (nums s o) \/ In n (dbls s o) -> rel s' (home n) = rel s (home n).
Proof.
  intros s a m ph b x s' n o B Cu E H. unfold base in B. rewrite Cu in B.
  destruct B as [B0 [BC [B1 [B2 [B3 [B4 [B5 [B6 B7]]]]]]]].
  destruct ph; simpl in E;
  repeat match type of E with
       | context [if ?c then _ else _] => destruct c eqn:?
       | context [match ent s ?c with _ => _ end] => destruct (ent s c) eqn:?
       end; apply ok_inj in E; subst s'; try reflexivity.
  cbn [rel withCur alloc]. unfold nums, dbls in H. rewrite Cu in H. destruct B7 as [E1 _].
  apply Nat.ltb_lt in Heqb0.
  assert (n = m) by (destruct H as [[H|[]]|[]]; congruence). subst n.
  assert (allocTo s x = m) as ->.
  { unfold allocTo. rewrite B5, (B6 Heqb0). destruct (Nat.ltb_spec m (Nat.max a m)); lia. }
  pose proof (HR m B2). destruct (Nat.leb_spec m (home m)); [lia|]. reflexivity.
Qed.

Lemma inv_step : forall s e s', inv home s -> calm s e -> step home s e = Some (Ok s') -> inv home s'.
Proof.
  intros s e s' I C E. pose proof (tok_step home s e s' (iT home s I) E) as T'.
  unfold step in E. destruct (step0 home s e) as [[|s1]|] eqn:E0; try discriminate. apply ok_inj in E. subst s'.
  constructor; [exact T'| |]; clear T'.
  - change (base s1). pose proof (iB home s I) as B. destruct e as [k|i b|c|n| |j x|b x]; simpl in E0.
    + destruct (num s =? 0); [discriminate|]. apply ok_inj in E0. subst s1. eapply base_ext; eauto.
    + destruct (nth_error (ops s) i) as [o|] eqn:N; [|discriminate]. destruct (op_shape home _ _ _ _ _ E0) as [o' [_ [Q1 [_ [Q2 [_ [Q3 [Q4 [Q5 Q6]]]]]]]]].
      eapply base_ext; eauto.
    + apply ok_inj in E0. subst s1. eapply base_ext; eauto.
    + apply ok_inj in E0. subst s1. destruct C as [C1 [C2 C3]]. unfold base in *. cbn [cur num conf pend na calls]. rewrite C2 in B. rewrite C3 in B. rewrite ?C2, ?C3.
      repeat split; try tauto.
    + destruct (Nat.eqb_spec (num s) (conf s)); [discriminate|]. apply ok_inj in E0. subst s1. destruct C as [C2 C3].
      unfold base in *. cbn [cur num conf pend na calls]. rewrite C2 in B. rewrite C3 in B. rewrite ?C2, ?C3. cbn [app]. repeat split; try tauto.
    + destruct (cur s) as [c0|] eqn:Cu; [discriminate|]. destruct (nth_error (calls s) j) as [[o w]|] eqn:N; [|discriminate].
      apply ok_inj in E0. subst s1. unfold base in B. rewrite Cu in B. destruct B as [B0 [B1 [B2 [B3 [B4|[B4 B5]]]]]].
      { rewrite B4 in N. destruct j; discriminate. }
      assert (j = 0) by (rewrite B4 in N; destruct j; [auto|destruct j; discriminate]). subst j. rewrite B4 in N. injection N as <- <-.
      unfold lockStep. cbn [conf na]. rewrite B4. cbn [firstn skipn app].
      set (s0 := mkS _ _ _ _ _ _ _ _ _ _ _ [] _ _ _ _ _).
      assert (AT : num s < conf s -> num s <= allocTo s0 x <= conf s).
      { intros Hc. unfold allocTo, s0. cbn [conf na]. rewrite B3. destruct (Nat.ltb_spec (conf s) (num s)); lia. }
      destruct (Nat.ltb_spec (num s) (conf s)) as [G|G].
      * specialize (AT G). destruct (Nat.eqb_spec (allocTo s0 x) (num s)) as [Q|Q].
        { unfold base, alloc, s0 in *. cbn [cur num conf pend na calls]. repeat split; auto. }
        assert ((allocTo s0 x =? 0) || (num s =? 0) = false) as ->.
        { destruct (Nat.eqb_spec (allocTo s0 x) 0); [lia|]. destruct (Nat.eqb_spec (num s) 0); [lia|]. reflexivity. }
        unfold base. cbn [cur num conf pend na calls withCur alloc]. unfold s0 at 4 5. cbn [num conf pend calls].
        repeat split; auto; try lia; unfold s0; cbn; lia.
      * destruct (Nat.eqb_spec (conf s) (num s)); [congruence|].
        assert ((conf s =? 0) || (num s =? 0) = false) as ->.
        { destruct (Nat.eqb_spec (conf s) 0); [lia|]. destruct (Nat.eqb_spec (num s) 0); [lia|]. reflexivity. }
        unfold base. cbn [cur num conf pend na calls withCur]. unfold s0. cbn [num conf pend calls na]. repeat split; auto; lia.
    + destruct (cur s) as [[[o m] ph]|] eqn:Cu; [|discriminate]. eapply res_base; eauto.
  - intros o Ho. apply view_tick. change (In o (ops s1)) in Ho. pose proof (iB home s I) as B. destruct e as [k|i b|c|n| |j x|b x]; simpl in E0.
    + destruct (num s =? 0); [discriminate|]. apply ok_inj in E0. subst s1. cbn [ops] in Ho. apply in_app_or in Ho.
      destruct Ho as [Ho|[<-|[]]]; [|exact Logic.I]. eapply view_ext; [..|apply (iV home s I); exact Ho]; reflexivity.
    + destruct (nth_error (ops s) i) as [oo|] eqn:N; [|discriminate]. destruct (op_shape home _ _ _ _ _ E0) as [o' [Q0 [Q1 [Q2 [Q3 [Q4 _]]]]]].
      rewrite Q0 in Ho. destruct (in_set_cases _ _ _ _ Ho ltac:(eauto)) as [X|X].
      * rewrite <- Q0 in X. eapply op_view; eauto.
      * eapply view_ext; [..|apply (iV home s I); exact X]; auto.
    + apply ok_inj in E0. subst s1. eapply view_ext; [..|apply (iV home s I); exact Ho]; reflexivity.
    + apply ok_inj in E0. subst s1. eapply view_ext; [..|apply (iV home s I); exact Ho]; reflexivity.
    + destruct (num s =? conf s); [discriminate|]. apply ok_inj in E0. subst s1. eapply view_ext; [..|apply (iV home s I); exact Ho]; reflexivity.
    + destruct (cur s) as [c0|] eqn:Cu; [discriminate|]. destruct (nth_error (calls s) j) as [[o0 w]|] eqn:N; [|discriminate].
      apply ok_inj in E0. subst s1. unfold base in B. rewrite Cu in B. destruct B as [B0 [B1 [B2 [B3 [B4|[B4 B5]]]]]].
      { rewrite B4 in N. destruct j; discriminate. }
      assert (j = 0) by (rewrite B4 in N; destruct j; [auto|destruct j; discriminate]). subst j. rewrite B4 in N. injection N as <- <-.
      assert (Ho' : In o (ops s)).
      { revert Ho. unfold lockStep. destruct (num s <? conf s); destruct (_ =? num s); try destruct (_ || _); auto. }
      pose proof (iV home s I o Ho') as V.
      assert (P0 : forall c, cur s = None -> c = None \/ (exists m, c = Some (num s, m, APend)) \/ (exists m, c = Some (num s, m, ZNum)) ->
        forall s2, cur s2 = c -> num s2 = num s -> xors s2 = xors s -> (forall k, k < num s -> rel s2 k = rel s k) -> view home s2 o).
      { intros c _ Hc s2 R1 R2 R3 R4. apply view_sub with (s := s); [| |exact V].
        - unfold phv, nums, pends, dbls. rewrite R1, Cu, R2. destruct Hc as [->|[[m ->]|[m ->]]]; auto.
        - intros k Hk. apply R4. unfold nums, dbls in Hk. rewrite Cu in Hk. destruct Hk as [[<-|[]]|[]]. apply HR; auto. }
      unfold lockStep. cbn [conf na]. rewrite B4. cbn [firstn skipn app].
      set (s0 := mkS _ _ _ _ _ _ _ _ _ _ _ [] _ _ _ _ _).
      assert (RR : num s < conf s -> forall k, k < num s -> rel (alloc s0 (allocTo s0 x)) k = rel s k).
      { intros G k Hk. cbn [alloc rel]. unfold allocTo. unfold s0 at 1 2 3 4 5 6 7 8. cbn [conf na rel].
        destruct (Nat.ltb_spec (conf s) (na s)); [lia|]. destruct (Nat.leb_spec (Nat.min (conf s) (Nat.max (na s) x)) k); [lia|reflexivity]. }
      destruct (Nat.ltb_spec (num s) (conf s)) as [G|G]; destruct (_ =? num s).
      * apply (P0 None); auto.
      * destruct (_ || _).
        -- eapply P0; [auto| |reflexivity|reflexivity|reflexivity|]; [right; right; eexists; reflexivity|apply RR; auto].
        -- eapply P0; [auto| |reflexivity|reflexivity|reflexivity|]; [right; left; eexists; reflexivity|apply RR; auto].
      * apply (P0 None); auto.
      * destruct (_ || _).
        -- eapply P0; [auto| |reflexivity|reflexivity|reflexivity|]; [right; right; eexists; reflexivity|reflexivity].
        -- eapply P0; [auto| |reflexivity|reflexivity|reflexivity|]; [right; left; eexists; reflexivity|reflexivity].
    + destruct (cur s) as [[[a m] ph]|] eqn:Cu; [|discriminate].
      assert (EO : ops s1 = ops s).
      { clear Ho. destruct ph; simpl in E0; repeat match type of E0 with
       | context [if ?c then _ else _] => destruct c eqn:?
       | context [match ent s ?c with _ => _ end] => destruct (ent s c) eqn:?
       end; apply ok_inj in E0; subst s1; reflexivity. }
      rewrite EO in Ho. destruct (holds o) eqn:Hh; [|apply view_idle; auto].
      apply view_sub with (s := s); [eapply res_phv; eauto| |apply (iV home s I); auto].
      intros n Hn. eapply res_rel; eauto.
Qed.

Lemma inv_reach : forall n s (P : state -> event -> Prop), 0 < n -> (forall s e, P s e -> calm s e) -> reach home P (init n) s -> inv home s.
Proof. intros n s P H HP R. induction R; [apply inv_init; auto|]. eapply inv_step; eauto. Qed.

Lemma op_safe : forall s i o b, inv home s -> nth_error (ops s) i = Some o -> opStep home s i o b <> Some Bad.
Proof.
  intros s i o b I N E. pose proof (iV home s I o (nth_in _ _ _ N)) as V. unfold view in V. unfold opStep in E.
  destruct (pc o) as [|t|t| |[c g]| |n|[c g]|ok|]; try discriminate.
  - destruct (Bool.eqb _ _); discriminate.
  - destruct (ptrTo _ _); discriminate.
  - destruct b; [discriminate|]. unfold live in E. cbn [fst snd] in E. destruct V as [-> _]. rewrite Nat.eqb_refl in E. cbn in E. destruct (kd o); discriminate.
  - destruct (pend s =? 0); discriminate.
  - destruct (ptrTo _ _); [destruct (ptrTo _ _); [destruct (_ =? _)|]|]; discriminate.
  - unfold live in E. cbn [fst snd] in E. destruct V as [-> _]. rewrite Nat.eqb_refl in E. discriminate.
Qed.

Theorem safe : forall n s e, 0 < n -> reach home calm (init n) s -> step home s e <> Some Bad.
Proof.
  intros n s e H R E. pose proof (inv_reach n s calm H ltac:(auto) R) as I.
  unfold step in E. destruct (step0 home s e) as [[|s1]|] eqn:E0; try discriminate.
  destruct e as [k|i b|c|x| |j x|b x]; simpl in E0.
  - destruct (num s =? 0); discriminate.
  - destruct (nth_error (ops s) i) as [o|] eqn:N; [|discriminate]. eapply op_safe; eauto.
  - discriminate.
  - discriminate.
  - destruct (num s =? conf s); discriminate.
  - destruct (cur s); [discriminate|]. destruct (nth_error (calls s) j) as [[? ?]|]; discriminate.
  - destruct (cur s) as [[[a m] ph]|]; [|discriminate]. destruct ph; simpl in E0;
    repeat match type of E0 with
       | context [if ?c then _ else _] => destruct c eqn:?
       | context [match ent s ?c with _ => _ end] => destruct (ent s c) eqn:?
       end; discriminate.
Qed.

(** waiting for the cohort, whatever the sizes *)
Lemma tok_reach : forall n s (P : state -> event -> Prop), reach home P (init n) s -> tokInv s.
Proof. intros n s P R. induction R; [apply tok_init|]. eapply tok_step; eauto. Qed.
Theorem drained : forall n s (P : state -> event -> Prop) a m ph o, reach home P (init n) s -> cur s = Some (a, m, ph) -> waited ph = true ->
  In o (ops s) -> holds o = true -> te o = xors s.
Proof.
  intros n s P a m ph o R Cu W Ho Hh. pose proof (tok_reach n s P R) as T.
  destruct (tkT s T o Ho Hh) as [[Q _]|[a1 [b1 [ph1 [Q1 [Q2 _]]]]]]; [auto|].
  rewrite Cu in Q1. injection Q1 as <- <- <-. destruct ph; discriminate.
Qed.
End P.
