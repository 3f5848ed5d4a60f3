(** The access tracker: nothing is forgotten too early; exactness. *)
From Coq Require Import List Arith Bool Sorted Lia.
Import ListNotations.
From Verif Require Import Tracker_model Tracker_spec.

Lemma cancel : forall N a b i, 0 < N -> i <= N -> (a + i) mod N = (b + i) mod N -> a mod N = b mod N.
Proof.
  intros N a b i P L H. assert (E : ((a + i) + (N - i)) mod N = ((b + i) + (N - i)) mod N) by (rewrite (Nat.add_mod (a + i)), (Nat.add_mod (b + i)) by lia; now rewrite H).
  replace (a + i + (N - i)) with (a + 1 * N) in E by lia. replace (b + i + (N - i)) with (b + 1 * N) in E by lia. now rewrite !Nat.mod_add in E by lia.
Qed.
Lemma slot : forall N r v, 0 < N -> v <= r -> (r mod N + N - (r - v) mod N) mod N = v mod N.
Proof.
  intros N r v P L. pose proof (Nat.mod_upper_bound (r - v) N). apply (cancel N _ _ ((r - v) mod N)); [assumption|lia|].
  rewrite Nat.sub_add by lia. replace (r mod N + N) with (r mod N + 1 * N) by lia. rewrite Nat.mod_add, Nat.mod_mod by lia.
  rewrite Nat.add_mod_idemp_r by lia. f_equal. lia.
Qed.
Lemma near : forall N a b, 0 < N -> a <= b -> b < a + N -> a mod N = b mod N -> a = b.
Proof.
  intros N a b P L1 L2 H. assert (E : (b - a) mod N = 0).
  { replace b with (a + (b - a)) in H by lia. rewrite <- (Nat.add_0_l a) in H at 1. rewrite (Nat.add_comm a (b - a)) in H.
    pose proof (Nat.mod_upper_bound a N). assert (Q : (0 + a mod N) mod N = ((b - a) + a mod N) mod N) by (rewrite !Nat.add_mod_idemp_r by lia; exact H).
    apply cancel in Q; [|assumption|lia]. rewrite <- Q. now apply Nat.mod_0_l; lia. }
  rewrite Nat.mod_small in E by lia. lia.
Qed.
Lemma count_app : forall a b h, count (a ++ b) h = count a h + count b h.
Proof. intros. unfold count. apply count_occ_app. Qed.
Lemma acc_app : forall T a b c, accesses T (a ++ b) c = accesses T a c ++ accesses T b c.
Proof. induction a as [|[t h|t h] a IH]; intros b c; cbn; auto. destruct (t / T =? c); cbn; now rewrite IH. Qed.

Section K.
Variables (N T : nat).
Hypothesis NP : 0 < N.

Record Inv (ops : list op) (s : tracker) (c : nat) : Prop := {
  i_late : forall b, c < b -> accesses T ops b = [];
  i_rec : exists r, (r = c \/ r = c + 1) /\ recent s = r mod N /\
     forall b, b <= c -> c < b + N -> exists v, (v = b \/ v = b + 1) /\ (b = c -> v = r) /\ forall h, count (accesses T ops b) h <= count (bks s (v mod N)) h
}.
Lemma next_idx : forall c, (c mod N + 1) mod N = (c + 1) mod N.
Proof. intros c. rewrite (Nat.add_mod (c mod N)), Nat.mod_mod by lia. now rewrite <- Nat.add_mod by lia. Qed.
(** what an update does, by cases *)
Lemma update_cases : forall s t, let c := t / T in
  (update N T s t = s /\ exists r, (r = c \/ r = c + 1) /\ recent s = r mod N) \/
  (update N T s t = mkT (c mod N) (put (bks s) (c mod N) []) /\ c mod N <> recent s /\ (c + 1) mod N <> recent s).
Proof.
  intros s t c. unfold update, moves, idx. fold c. rewrite next_idx. destruct (Nat.eqb_spec (c mod N) (recent s)) as [E|E]; cbn.
  - left. split; [reflexivity|]. exists c. auto.
  - destruct (Nat.eqb_spec ((c + 1) mod N) (recent s)) as [F|F]; cbn.
    + left. split; [reflexivity|]. exists (c + 1). auto.
    + right. unfold cas, moves. rewrite next_idx. destruct (Nat.eqb_spec (c mod N) (recent s)); [contradiction|]. destruct (Nat.eqb_spec ((c + 1) mod N) (recent s)); [contradiction|]. cbn. auto.
Qed.
Lemma inv_first : forall t, Inv [] (update N T fresh t) (t / T).
Proof.
  intros t. destruct (update_cases fresh t) as [(E & r & R1 & R2)|(E & _)]; rewrite E; (constructor; [reflexivity|]).
  - exists r. split; [assumption|]. split; [assumption|]. intros b B1 B2. exists (if b =? t / T then r else b). destruct (Nat.eqb_spec b (t / T)); (split; [lia|]); (split; [lia|intros h; cbn; lia]).
  - exists (t / T). split; [auto|]. split; [reflexivity|]. intros b B1 B2. exists b. split; [auto|]. split; [auto|intros h; cbn; lia].
Qed.
Lemma same_noop : forall s t r, (r = t / T \/ r = t / T + 1) -> recent s = r mod N -> update N T s t = s.
Proof.
  intros s t r R E. destruct (update_cases s t) as [(U & _)|(_ & A & B)]; [exact U|]. exfalso. rewrite E in A, B. destruct R as [->| ->]; auto.
Qed.
Lemma inv_update : forall ops s c t, Inv ops s c -> c <= t / T -> Inv ops (update N T s t) (t / T).
Proof.
  intros ops s c t [A (r & R1 & R2 & K)] L. destruct (Nat.eq_dec c (t / T)) as [->|NE].
  - rewrite (same_noop s t r R1 R2). constructor; [exact A|]. exists r. auto.
  - assert (LT : c < t / T) by lia. assert (A' : forall b, t / T < b -> accesses T ops b = []) by (intros; apply A; lia). destruct (update_cases s t) as [(E & r' & Q1 & Q2)|(E & M1 & M2)]; rewrite E; (constructor; [exact A'|]).
    + exists r'. split; [assumption|]. split; [assumption|]. intros b B1 B2. destruct (le_lt_dec b c) as [Lb|Lb].
      * destruct (K b Lb ltac:(lia)) as (v & V1 & V2 & V3). exists v. repeat split; auto. lia.
      * exists (if b =? t / T then r' else b). destruct (Nat.eqb_spec b (t / T)); (split; [lia|]); (split; [lia|]); intros h; rewrite A by lia; cbn; lia.
    + exists (t / T). split; [auto|]. split; [reflexivity|]. intros b B1 B2. cbn [bks]. destruct (le_lt_dec b c) as [Lb|Lb].
      * destruct (K b Lb ltac:(lia)) as (v & V1 & V2 & V3). exists v. split; [assumption|]. split; [lia|]. intros h. unfold put.
        destruct (Nat.eqb_spec (v mod N) ((t / T) mod N)) as [Q|Q]; [|apply V3]. exfalso. apply near in Q; [|assumption|lia|lia]. assert (b = c) by lia. specialize (V2 H). apply M1. rewrite R2. congruence.
      * exists b. split; [auto|]. split; [auto|]. intros h. rewrite A by lia. cbn. lia.
Qed.
Lemma inv_add : forall ops s t h, Inv ops s (t / T) -> Inv (ops ++ [Rec t h]) (add s (recent s) h) (t / T).
Proof.
  intros ops s t h [A (r & R1 & R2 & K)]. constructor.
  - intros b B. rewrite acc_app, A by lia. cbn. destruct (Nat.eqb_spec (t / T) b); [lia|reflexivity].
  - exists r. split; [assumption|]. split; [assumption|]. intros b B1 B2. destruct (K b B1 B2) as (v & V1 & V2 & V3). exists v. split; [assumption|]. split; [assumption|]. intros k.
    rewrite acc_app, count_app. cbn [accesses add bks]. specialize (V3 k). unfold put. destruct (Nat.eqb_spec (t / T) b) as [E|E].
    + assert (v = r) by (apply V2; congruence). subst v. rewrite R2, Nat.eqb_refl, count_app. lia.
    + destruct (v mod N =? recent s) eqn:Q; [apply Nat.eqb_eq in Q; rewrite <- Q, count_app|]; cbn; lia.
Qed.
Lemma inv_get : forall ops s t h c, Inv ops s c -> Inv (ops ++ [Get t h]) s c.
Proof.
  intros ops s t h c [A (r & R1 & R2 & K)]. constructor.
  - intros b B. rewrite acc_app, A by lia. reflexivity.
  - exists r. split; [assumption|]. split; [assumption|]. intros b B1 B2. destruct (K b B1 B2) as (v & V1 & V2 & V3). exists v. repeat split; auto. intros k. rewrite acc_app. cbn. now rewrite app_nil_r.
Qed.
Lemma sorted_app : forall l t u, StronglySorted le ((l ++ [t]) ++ [u]) -> StronglySorted le (l ++ [t]) /\ t <= u.
Proof.
  induction l as [|a l IH]; intros t u H; cbn in *.
  - inversion H as [|? ? S F]; subst. inversion F; subst. split; [repeat constructor|assumption].
  - inversion H as [|? ? S F]; subst. destruct (IH t u S) as [S1 L]. split; [|assumption]. constructor; [assumption|]. apply Forall_app in F. tauto.
Qed.
Lemma inv_run : forall ops t, 0 < T -> ordered ops t -> Inv ops (update N T (run N T (fun _ _ => 0) ops) t) (t / T).
Proof.
  intros ops. induction ops as [|o ops IH] using rev_ind; intros t TP O; [apply inv_first|].
  unfold ordered in O. rewrite map_app in O. cbn in O. apply sorted_app in O. destruct O as [O L]. specialize (IH (at_ o) TP O).
  unfold run. rewrite fold_left_app. cbn [fold_left]. fold (run N T (fun _ _ => 0) ops). 
  assert (D : at_ o / T <= t / T) by (apply Nat.div_le_mono; lia). eapply inv_update; [|exact D].
  destruct o as [t0 h|t0 h]; cbn [exec at_] in *; [now apply inv_add|now apply inv_get].
Qed.
Lemma run_est : forall e e' ops, run N T e ops = run N T e' ops.
Proof. intros. unfold run. f_equal. Qed.

Lemma kept : forall est ops t h b, 0 < T -> noless est -> ordered ops t -> b <= t / T -> t / T < b + N ->
  exists i, i < N /\ count (accesses T ops b) h <= nth i (answer N T est ops t h) 0 /\ (t / T + 2 <= b + N -> (t / T - b) - 1 <= i <= (t / T - b) + 1).
Proof.
  intros est ops t h b TP NL O B1 B2. destruct (i_rec _ _ _ (inv_run ops t TP O)) as (r & R1 & R2 & K). destruct (K b B1 B2) as (v & V1 & V2 & V3).
  assert (VR : v <= r) by lia. pose proof (Nat.mod_upper_bound (r - v) N ltac:(lia)) as U. exists ((r - v) mod N). split; [assumption|]. split.
  - unfold answer, get. cbn [snd]. rewrite (run_est est (fun _ _ => 0)). unfold features.
    rewrite (nth_indep _ 0 (est (bks (update N T (run N T (fun _ _ => 0) ops) t) ((recent (update N T (run N T (fun _ _ => 0) ops) t) + N - 0) mod N)) h)) by (now rewrite map_length, seq_length).
    rewrite (map_nth (fun i => est (bks (update N T (run N T (fun _ _ => 0) ops) t) ((recent (update N T (run N T (fun _ _ => 0) ops) t) + N - i) mod N)) h)).
    rewrite seq_nth by assumption. cbn [Nat.add]. rewrite R2, slot by assumption. etransitivity; [apply V3|apply NL].
  - intros W. rewrite Nat.mod_small by lia. lia.
Qed.
End K.
