(** The end of a resize; examples. *)
From Coq Require Import List Arith Bool Lia.
Import ListNotations.
From Verif Require Import CCResize_model CCResize_spec CCResize_proofs1 CCResize_proofs2 CCResize_proofs3 CCResize_proofs4 CCResize_proofs5.

Section P.
Variable home : nat -> nat.
Hypothesis HR : inRange home.
Theorem over : forall n s m b x s', 0 < n -> reach home calm (init n) s -> step home s (ERes b x) = Some (Ok s') -> finished m s s' ->
  settled m s'.
Proof.
  intros n s m b x s' Hn R E [[o [ph Cu]] Cn].
  pose proof (inv_reach home HR n s calm Hn ltac:(auto) R) as I.
  assert (I' : inv home s') by (eapply inv_step; eauto; exact Logic.I).
  pose proof (iB home s' I') as B'. unfold base in B'. rewrite Cn in B'. destruct B' as [B0 [B1 [B2 [B3 _]]]].
  unfold settled. rewrite B3, B2. enough (num s' = m) by auto.
  unfold step in E. cbn [step0] in E. rewrite Cu in E. destruct (resStep home s o m ph b x) as [[|s1]|] eqn:E0; try discriminate. apply ok_inj in E. subst s'.
  pose proof (iB home s I) as B. unfold base in B. rewrite Cu in B. destruct B as [_ [BC [C1 [C2 [C3 [C4 [C5 [C6 C7]]]]]]]].
  pose proof (HR m C2).
  destruct ph; simpl in E0; try tauto; repeat match type of E0 with
       | context [if ?c then _ else _] => destruct c eqn:?
       | context [match ent s ?c with _ => _ end] => destruct (ent s c) eqn:?
       end; apply ok_inj in E0; subst s1; cbn [tick cur withCur withEnt setPend setNum doXor alloc num] in *; try discriminate; try congruence; try tauto;
  repeat match goal with
    | X : (_ <? _) = false |- _ => apply Nat.ltb_ge in X
    | X : (_ <? _) = true |- _ => apply Nat.ltb_lt in X
    end; lia.
Qed.
End P.

Fixpoint along (home : nat -> nat) (P : state -> event -> Prop) (s : state) (es : list event) : Prop :=
  match es with [] => True | e :: es => P s e /\ match step home s e with Some (Ok s1) => along home P s1 es | _ => True end end.
Lemma runs_reach : forall home (P : state -> event -> Prop) es s0 s s', reach home P s0 s -> runs home s es = Some (Ok s') ->
  along home P s es -> reach home P s0 s'.
Proof.
  induction es as [|e es IH]; intros s0 s s' R E H.
  - simpl in E. injection E as <-. exact R.
  - cbn [runs] in E. cbn [along] in H. destruct H as [H1 H2]. destruct (step home s e) as [[|s1]|] eqn:Q; try discriminate.
    apply IH with (s := s1); auto. apply reachS with (s := s) (e := e); auto.
Qed.

Definition hm (n : nat) : nat := n - 1.
Lemma hm_range : inRange hm.
Proof. intros n H. unfold hm. lia. Qed.

Definition st_ (i n : nat) : list event := repeat (EStep i false) n.
Definition rs (n : nat) : list event := repeat (ERes true 9) n.

(** a set, then a cache of one chunk grows to two *)
Definition grow : list event := [EStart Set_] ++ st_ 0 6 ++ [EConf 2; ERead; ELock 0 9].

(** with a get before, in the middle and after *)
Definition g1 : list event := [EStart Set_] ++ st_ 0 6.
Definition g2 : list event := [EConf 2; ERead; ELock 0 9; EStart Get] ++ st_ 1 3 ++ rs 2 ++ st_ 1 2 ++ rs 3 ++ [EStart Get] ++ st_ 2 3 ++ rs 2 ++ st_ 2 2 ++ rs 7 ++ [EStart Get] ++ st_ 3 5.
Definition stOf (r : option res) : state := match r with Some (Ok s) => s | _ => init 0 end.
Definition s1 : state := stOf (runs hm (init 1) g1).
Definition s2 : state := stOf (runs hm s1 g2).

(** a del that straddles the store of numChunks_ *)
Definition straddle : list event := grow ++ rs 3 ++ rs 2 ++ [EStart Del] ++ st_ 1 3 ++ rs 1 ++ st_ 1 4 ++ [EStart Get] ++ st_ 2 5.
Definition s3 : state := stOf (runs hm (init 1) straddle).
(** the same, but the del is through before *)
Definition inTime : list event := grow ++ rs 3 ++ [EStart Del] ++ st_ 1 8 ++ rs 3 ++ [EStart Get] ++ st_ 2 5.
Definition s4 : state := stOf (runs hm (init 1) inTime).
(** disabled *)
Definition disable : list event := [EStart Set_; EConf 0; ERead; ELock 0 0] ++ rs 3 ++ st_ 0 3 ++ rs 1.
Definition s5 : state := stOf (runs hm (init 1) disable).
(** two resizes *)
Definition two : list event := [EConf 2; ERead; ERead; ELock 0 0] ++ rs 18 ++ [ELock 0 0] ++ rs 6.
Definition s6 : state := stOf (runs hm (init 3) two).
(** the pool shrinks again *)
Definition again : list event := [EConf 2; ERead; ELock 0 0] ++ rs 17 ++ [EConf 1; EStart Get] ++ st_ 0 3 ++ rs 1.
Definition s7 : state := stOf (runs hm (init 3) again).
