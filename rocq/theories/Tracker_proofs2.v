(** The access tracker in steady use is exact; the reinsertion policy. *)
From Coq Require Import List Arith Bool Sorted Lia.
Import ListNotations.
From Verif Require Import Tracker_model Tracker_spec Tracker_proofs1.

Section E.
Variables (N T : nat).
Hypothesis N3 : 3 <= N.
Hypothesis TP : 0 < T.

Record Ex (ops : list op) (s : tracker) (c : nat) : Prop := {
  e_rec : recent s = c mod N;
  e_late : forall b, c < b -> accesses T ops b = [];
  e_bks : forall b, b <= c -> c < b + N -> bks s (b mod N) = accesses T ops b;
  e_none : forall i, c < i -> i < N -> bks s i = []
}.
Lemma put_same : forall f i l, put f i l i = l. Proof. intros. unfold put. now rewrite Nat.eqb_refl. Qed.
Lemma put_other : forall f i l j, j <> i -> put f i l j = f j. Proof. intros. unfold put. now destruct (Nat.eqb_spec j i). Qed.
Lemma ex_first : forall t, (t / T + 1) mod N <> 0 -> Ex [] (update N T fresh t) (t / T).
Proof.
  intros t H. destruct (update_cases N T ltac:(lia) fresh t) as [(E & r & R1 & R2)|(E & _)]; rewrite E.
  - cbn in R2. destruct R1 as [->| ->]; [|congruence]. constructor; cbn; auto.
  - constructor; auto.
    + intros b B1 B2. cbn. unfold put. now destruct (b mod N =? (t / T) mod N).
    + intros i I1 I2. cbn. unfold put. now destruct (i =? (t / T) mod N).
Qed.
Lemma ex_update : forall ops s c t, Ex ops s c -> t / T = c \/ t / T = c + 1 -> Ex ops (update N T s t) (t / T).
Proof.
  intros ops s c t [A B C D] [L|L].
  - rewrite (same_noop N T ltac:(lia) s t c) by (auto; lia). rewrite L. constructor; auto.
  - assert (NL : forall k, 1 <= k < N -> (c + k) mod N <> c mod N) by (intros k K Q; symmetry in Q; apply near in Q; lia).
    destruct (update_cases N T ltac:(lia) s t) as [(E & r & R1 & R2)|(E & M1 & M2)].
    + exfalso. rewrite A, L in *. destruct R1 as [->| ->].
      * apply (NL 1); [lia|congruence].
      * apply (NL 2); [lia|]. rewrite R2. f_equal. lia.
    + rewrite E, L. constructor; cbn [recent bks].
      * reflexivity.
      * intros b H. apply B. lia.
      * intros b B1 B2. destruct (Nat.eq_dec b (c + 1)) as [->|Nb]; [rewrite put_same, B by lia; reflexivity|].
        rewrite put_other; [apply C; lia|]. intros Q. apply near in Q; lia.
      * intros i I1 I2. rewrite put_other; [apply D; lia|]. rewrite Nat.mod_small by lia. lia.
Qed.
Lemma ex_add : forall ops s t h, Ex ops s (t / T) -> Ex (ops ++ [Rec t h]) (add s (recent s) h) (t / T).
Proof.
  intros ops s t h [A B C D]. constructor; cbn [recent bks add].
  - exact A.
  - intros b H. rewrite acc_app, B by lia. cbn. destruct (Nat.eqb_spec (t / T) b); [lia|reflexivity].
  - intros b B1 B2. rewrite acc_app. cbn [accesses]. rewrite A. destruct (Nat.eqb_spec (t / T) b) as [E|E].
    + subst b. rewrite put_same, C by lia. reflexivity.
    + rewrite put_other; [rewrite app_nil_r; apply C; lia|]. intros Q. apply near in Q; lia.
  - intros i I1 I2. rewrite A, put_other; [now apply D|]. rewrite Nat.mod_small by lia. lia.
Qed.
Lemma ex_get : forall ops s t h c, Ex ops s c -> Ex (ops ++ [Get t h]) s c.
Proof.
  intros ops s t h c [A B C D]. constructor; auto.
  - intros b H. rewrite acc_app, B by lia. reflexivity.
  - intros b B1 B2. rewrite acc_app. cbn. rewrite app_nil_r. now apply C.
Qed.
Lemma steady_app : forall l a b, steady T ((l ++ [a]) ++ [b]) -> steady T (l ++ [a]) /\ (b / T = a / T \/ b / T = a / T + 1).
Proof.
  induction l as [|x l IH]; intros a b H.
  - cbn in *. tauto.
  - destruct l as [|y l].
    + cbn in *. tauto.
    + change (steady T (x :: ((y :: l) ++ [a]) ++ [b])) in H.  destruct H as [H1 H2]. destruct (IH a b H2) as [I1 I2]. split; [|assumption]. change (steady T (x :: ((y :: l) ++ [a]))). split; [exact H1|exact I1].
Qed.
Lemma ex_run : forall ops t, steady T (map at_ ops ++ [t]) -> (hd 0 (map at_ ops ++ [t]) / T + 1) mod N <> 0 -> Ex ops (update N T (run N T (fun _ _ => 0) ops) t) (t / T).
Proof.
  intros ops. induction ops as [|o ops IH] using rev_ind; intros t S F; [now apply ex_first|].
  rewrite map_app in S. cbn in S. apply steady_app in S. destruct S as [S L].
  assert (F' : (hd 0 (map at_ ops ++ [at_ o]) / T + 1) mod N <> 0) by (rewrite map_app in F; destruct ops; exact F).
  specialize (IH (at_ o) S F'). unfold run. rewrite fold_left_app. cbn [fold_left]. fold (run N T (fun _ _ => 0) ops).
  eapply ex_update; [|exact L]. destruct o as [t0 h|t0 h]; cbn [exec at_] in *; [now apply ex_add|now apply ex_get].
Qed.
Lemma exactly : forall est ops t h, steady T (map at_ ops ++ [t]) -> (hd 0 (map at_ ops ++ [t]) / T + 1) mod N <> 0 ->
  answer N T est ops t h = map (fun i => if i <=? t / T then est (accesses T ops (t / T - i)) h else est [] h) (seq 0 N).
Proof.
  intros est ops t h S F. destruct (ex_run ops t S F) as [A B C D]. unfold answer, get. cbn [snd]. rewrite (run_est N T est (fun _ _ => 0)). unfold features.
  apply map_ext_in. intros i I. apply in_seq in I. rewrite A. destruct (Nat.leb_spec i (t / T)) as [L|L].
  - rewrite <- C by lia. f_equal. f_equal. rewrite <- (slot N (t / T) (t / T - i)) by lia. f_equal. replace (t / T - (t / T - i)) with i by lia. now rewrite (Nat.mod_small i) by lia.
  - rewrite (Nat.mod_small (t / T)) by lia. rewrite Nat.mod_small by lia. rewrite D by lia. reflexivity.
Qed.
End E.

(** Nothing is made up: each bucket holds only what was recorded. *)
Lemma only : forall N T ops i h, count (bks (run N T (fun _ _ => 0) ops) i) h <= length (filter (fun o => match o with Rec _ k => k =? h | _ => false end) ops).
Proof.
  intros N T ops. induction ops as [|o ops IH] using rev_ind; intros i h; [cbn; lia|].
  unfold run. rewrite fold_left_app. cbn [fold_left]. fold (run N T (fun _ _ => 0) ops). rewrite filter_app, app_length. set (s := run N T (fun _ _ => 0) ops) in *.
  assert (U : forall t j k, count (bks (update N T s t) j) k <= count (bks s j) k).
  { intros t j k. unfold update. destruct (moves N s (idx N T t)) eqn:M; [|lia]. unfold cas. rewrite M. cbn [reset bks]. unfold put. destruct (j =? idx N T t); [apply Nat.le_0_l|apply le_n]. }
  destruct o as [t k|t k]; unfold exec, record, get, fst; cbv zeta; fold s.
  - cbn [add bks]. unfold put. specialize (IH i h). pose proof (U t i h). destruct (Nat.eqb_spec i (recent (update N T s t))) as [->|]; [|lia].
    rewrite count_app. cbn [filter]. unfold count at 2. cbn. destruct (Nat.eq_dec k h) as [->|]; [rewrite Nat.eqb_refl; cbn; lia|]. destruct (Nat.eqb_spec k h); [contradiction|]. cbn. lia.
  - specialize (IH i h). pose proof (U t i h). lia.
Qed.
Lemma invented : forall N T ops t h i, nth i (answer N T count ops t h) 0 <= length (filter (fun o => match o with Rec _ k => k =? h | _ => false end) ops).
Proof.
  intros N T ops t h i. pose proof (only N T (ops ++ [Get t h])) as O. unfold run in O. rewrite fold_left_app in O. cbn [fold_left exec get fst] in O. fold (run N T (fun _ _ => 0) ops) in O.
  assert (E : filter (fun o => match o with Rec _ k => k =? h | _ => false end) (ops ++ [Get t h]) = filter (fun o => match o with Rec _ k => k =? h | _ => false end) ops) by (rewrite filter_app; cbn; apply app_nil_r).
  unfold answer, get. cbn [snd]. rewrite (run_est N T count (fun _ _ => 0)). unfold features. set (s := update N T (run N T (fun _ _ => 0) ops) t) in *.
  destruct (le_lt_dec N i) as [L|L]; [rewrite nth_overflow by (rewrite map_length, seq_length; lia); lia|].
  rewrite (nth_indep _ 0 (count (bks s ((recent s + N - 0) mod N)) h)) by (rewrite map_length, seq_length; lia).
  rewrite (map_nth (fun i => count (bks s ((recent s + N - i) mod N)) h)). rewrite <- E. apply O.
Qed.

(** ** The policy *)
Lemma firstPos_some : forall l i j r, firstPos i l = Some (j, r) -> i <= j /\ j < i + length l /\ 0 < nth (j - i) l 0 /\ (forall k, k < j - i -> nth k l 0 = 0) /\ r = skipn (S (j - i)) l.
Proof.
  induction l as [|a l IH]; intros i j r H; cbn [firstPos] in H; [discriminate|]. destruct (Nat.ltb_spec 0 a) as [P|P].
  - assert (j = i /\ r = l) as [-> ->] by (split; congruence). rewrite Nat.sub_diag. cbn. repeat split; try lia.
  - destruct (IH _ _ _ H) as (A & B & C & D & E). replace (j - i) with (S (j - S i)) by lia. cbn [nth length]. repeat split; try lia; auto.
    intros [|k] K; [lia|]. apply D. lia.
Qed.
Lemma firstPos_none : forall l i, firstPos i l = None -> forall k, nth k l 0 = 0.
Proof.
  induction l as [|a l IH]; intros i H k; cbn [firstPos] in H; [now destruct k|]. destruct (Nat.ltb_spec 0 a) as [P|P]; [discriminate|]. destruct k; cbn; [lia|eapply IH; eauto].
Qed.
Lemma nth_skipn : forall (l : list nat) n k, nth k (skipn n l) 0 = nth (n + k) l 0.
Proof. induction l as [|a l IH]; intros [|n] k; cbn; auto. now destruct k. Qed.
Lemma prev_none : forall l, prevBuckets l = (None, None) -> forall k, nth k l 0 = 0.
Proof. intros l H. unfold prevBuckets in H. destruct (firstPos 0 l) as [[i r]|] eqn:E; [discriminate|]. eapply firstPos_none; eauto. Qed.
Lemma prev_some : forall l a o, prevBuckets l = (Some a, o) -> a < length l /\ 0 < nth a l 0 /\ (forall k, k < a -> nth k l 0 = 0) /\
  match o with Some b => a < b < length l /\ 0 < nth b l 0 /\ forall k, a < k < b -> nth k l 0 = 0 | None => forall k, a < k -> nth k l 0 = 0 end.
Proof.
  intros l a o H. unfold prevBuckets in H. destruct (firstPos 0 l) as [[i r]|] eqn:E; [|discriminate]. assert (a = i /\ o = match firstPos (S i) r with Some (j, _) => Some j | None => None end) as [-> ->] by (split; congruence). apply firstPos_some in E. destruct E as (_ & B & C & D & ->).
  rewrite Nat.sub_0_r in *. repeat split; auto. destruct (firstPos (S i) (skipn (S i) l)) as [[j r]|] eqn:F.
  - apply firstPos_some in F. destruct F as (F1 & F2 & F3 & F4 & _). rewrite skipn_length in F2. rewrite nth_skipn in F3. replace (S i + (j - S i)) with j in F3 by lia.
    repeat split; try lia; auto. intros k K. specialize (F4 (k - S i) ltac:(lia)). rewrite nth_skipn in F4. now replace (S i + (k - S i)) with k in F4 by lia.
  - intros k K. pose proof (firstPos_none _ _ F (k - S i)) as G. rewrite nth_skipn in G. now replace (S i + (k - S i)) with k in G by lia.
Qed.
Definition second (l : list nat) (a b : nat) : Prop := a < b /\ 0 < nth b l 0 /\ forall k, a < k < b -> nth k l 0 = 0.
Lemma policy : forall B thr fd ex l, 0 < B ->
  (shouldReinsert B thr fd ex l = true <-> fd = true /\ ex = false /\
   exists a, 0 < nth a l 0 /\ (forall k, k < a -> nth k l 0 = 0) /\ B * (a + 1) <= thr /\ forall b, second l a b -> (b - a) * B <= thr).
Proof.
  intros B thr fd ex l BP. unfold shouldReinsert, reuseTime. split.
  - intros H. apply andb_true_iff in H. destruct H as [H1 H2]. apply andb_true_iff in H1. destruct H1 as [H1 H3]. apply negb_true_iff in H3. split; [assumption|]. split; [assumption|].
    destruct (prevBuckets l) as [[a|] o] eqn:E; [|cbn in H2; discriminate]. destruct (prev_some _ _ _ E) as (A1 & A2 & A3 & A4). exists a. split; [assumption|]. split; [assumption|].
    destruct o as [b|]; apply negb_true_iff, orb_false_iff in H2; destruct H2 as [_ H2]; apply Nat.ltb_ge in H2.
    + split; [lia|]. intros b' (Q1 & Q2 & Q3). destruct A4 as (A4 & A5 & A6). assert (b' = b); [|subst; lia].
      destruct (lt_eq_lt_dec b b') as [[L|L]|L]; [specialize (Q3 b ltac:(lia)); lia|congruence|specialize (A6 b' ltac:(lia)); lia].
    + split; [lia|]. intros b' (Q1 & Q2 & _). rewrite A4 in Q2 by lia. lia.
  - intros (-> & -> & a & P1 & P2 & P3 & P4). cbn [andb negb]. destruct (prevBuckets l) as [[a'|] o] eqn:E.
    + destruct (prev_some _ _ _ E) as (A1 & A2 & A3 & A4). assert (a' = a) as -> by (destruct (lt_eq_lt_dec a' a) as [[L|L]|L]; [rewrite P2 in A2 by lia; lia|congruence|rewrite A3 in P1 by lia; lia]).
      apply negb_true_iff, orb_false_iff. destruct o as [b|]; (split; [apply Nat.eqb_neq; nia|apply Nat.ltb_ge]).
      * apply Nat.max_lub; [assumption|]. apply P4. destruct A4 as (A4 & A5 & A6). repeat split; auto. lia.
      * assumption.
    + exfalso. unfold prevBuckets in E. destruct (firstPos 0 l) as [[i r]|] eqn:F; [discriminate|]. pose proof (firstPos_none _ _ F a). lia.
Qed.

Lemma reinserted : forall N T est ops t h b B thr, 0 < N -> 0 < T -> 0 < B -> sees est -> ordered ops t -> b <= t / T -> t / T < b + N -> In h (accesses T ops b) -> N * B <= thr ->
  shouldReinsert B thr true false (answer N T est ops t h) = true.
Proof.
  intros N T est ops t h b B thr NP TP BP SE O B1 B2 I TH.
  destruct (i_rec _ _ _ _ _ (inv_run N T NP ops t TP O)) as (r & R1 & R2 & K). destruct (K b B1 B2) as (v & V1 & V2 & V3).
  assert (VR : v <= r) by lia. pose proof (Nat.mod_upper_bound (r - v) N ltac:(lia)) as U.
  set (s := update N T (run N T (fun _ _ => 0) ops) t) in *.
  assert (HA : answer N T est ops t h = map (fun i => est (bks s ((recent s + N - i) mod N)) h) (seq 0 N)) by (unfold answer, get; cbn [snd]; rewrite (run_est N T est (fun _ _ => 0)); reflexivity).
  assert (LE : length (answer N T est ops t h) = N) by (rewrite HA, map_length, seq_length; reflexivity).
  assert (PO : 0 < nth ((r - v) mod N) (answer N T est ops t h) 0).
  { rewrite HA. rewrite (nth_indep _ 0 (est (bks s ((recent s + N - 0) mod N)) h)) by (now rewrite map_length, seq_length).
    rewrite (map_nth (fun i => est (bks s ((recent s + N - i) mod N)) h)). rewrite seq_nth by assumption. cbn [Nat.add]. rewrite R2, slot by assumption. apply SE.
    specialize (V3 h). apply (count_occ_In Nat.eq_dec). unfold count in V3. apply (count_occ_In Nat.eq_dec) in I. lia. }
  set (l := answer N T est ops t h) in *. apply policy; [assumption|]. split; [reflexivity|]. split; [reflexivity|].
  destruct (prevBuckets l) as [[a|] o] eqn:E.
  - destruct (prev_some _ _ _ E) as (A1 & A2 & A3 & _). exists a. split; [assumption|]. split; [assumption|]. rewrite LE in A1. split; [nia|].
    intros b' (Q1 & Q2 & _). assert (b' < N) by (destruct (le_lt_dec N b') as [L|L]; [rewrite nth_overflow in Q2 by lia; lia|assumption]). nia.
  - exfalso. unfold prevBuckets in E. destruct (firstPos 0 l) as [[i q]|] eqn:F; [discriminate|]. pose proof (firstPos_none _ _ F ((r - v) mod N)). lia.
Qed.
