(** Counting lookups and answers; the table of waiters. *)
From Coq Require Import List Arith Bool Lia.
Import ListNotations.
From Verif Require Import MoveWait_model MoveWait_proofs1 MoveWait_proofs2 MoveWait_proofs3.

(** ** Each lookup is in one place *)
Definition b2n (b : bool) : nat := if b then 1 else 0.
Fixpoint cnt {B} (w : nat) (l : list (nat * B)) : nat :=
  match l with [] => 0 | x :: r => b2n (fst x =? w) + cnt w r end.
Fixpoint cntT (w : nat) (l : list entry) : nat :=
  match l with [] => 0 | e :: r => cnt w (ews e) + cntT w r end.
Fixpoint ansn (w : nat) (l : list event) : nat :=
  match l with [] => 0 | EAns x _ :: r => b2n (x =? w) + ansn w r | _ :: r => ansn w r end.

Lemma cnt_app {B} w (l1 l2 : list (nat * B)) : cnt w (l1 ++ l2) = cnt w l1 + cnt w l2.
Proof. induction l1; cbn; lia. Qed.
Lemma cntT_app w l1 l2 : cntT w (l1 ++ l2) = cntT w l1 + cntT w l2.
Proof. induction l1; cbn; lia. Qed.
Lemma cnt_in {B} w (o : B) l : In (w, o) l -> 1 <= cnt w l.
Proof. induction l as [|x r IH]; cbn; [tauto|]. intros [->|H]; [cbn; rewrite Nat.eqb_refl; cbn; lia|]. specialize (IH H). lia. Qed.
Lemma cntT_in w o e l : In e l -> In (w, o) (ews e) -> 1 <= cntT w l.
Proof. induction l as [|x r IH]; cbn; [tauto|]. intros [->|H] I; [apply cnt_in in I; lia|]. specialize (IH H I). lia. Qed.
Lemma cnt_ex {B} w (l : list (nat * B)) : 1 <= cnt w l -> exists o, In (w, o) l.
Proof.
  induction l as [|[x o] r IH]; cbn; [lia|]. destruct (x =? w) eqn:E; [apply Nat.eqb_eq in E; subst; eauto|].
  cbn. intros H. destruct (IH H). eauto.
Qed.
Lemma cntT_ex w l : 1 <= cntT w l -> exists e o, In e l /\ In (w, o) (ews e).
Proof.
  induction l as [|x r IH]; cbn; [lia|]. intros H. destruct (cnt w (ews x)) eqn:E.
  - destruct IH as (e & o & ? & ?); [lia|]. eauto.
  - destruct (cnt_ex w (ews x)) as (o & ?); [lia|]. eauto.
Qed.
Lemma ansn_in w v l : In (EAns w v) l -> 1 <= ansn w l.
Proof.
  induction l as [|x r IH]; cbn; [tauto|]. intros [->|H]; [rewrite Nat.eqb_refl; cbn; lia|]. specialize (IH H). destruct x; lia.
Qed.
Lemma ansn_ex w l : 1 <= ansn w l -> exists v, In (EAns w v) l.
Proof.
  induction l as [|x r IH]; cbn; [lia|]. destruct x; try (intros H; destruct (IH H); eauto; fail).
  destruct (w0 =? w) eqn:E; [apply Nat.eqb_eq in E; subst; eauto|]. cbn. intros H. destruct (IH H). eauto.
Qed.

Record Cnt (s : state) : Prop := {
  c_one : forall w, cnt w (trys s) + cntT w (tbl s) + ansn w (tr s) = b2n (w <? nw s);
  c_ask : forall w, (exists k, In (EAsk w k) (tr s)) <-> w < nw s;
  c_fun : forall w k j, In (EAsk w k) (tr s) -> In (EAsk w j) (tr s) -> k = j
}.

Lemma addTo_cnt visits s k w l : forall l', addTo visits s k w l = Some l' -> forall x, cntT x l' = cntT x l + b2n (fst w =? x).
Proof.
  induction l as [|e r IH]; cbn; [discriminate|]. intros l'. destruct (hit visits s k e).
  - intros [= <-] x. cbn. rewrite cnt_app. cbn. lia.
  - destruct (addTo visits s k w r) as [r'|] eqn:E; [|discriminate]. intros [= <-] x. cbn. rewrite (IH _ eq_refl). lia.
Qed.
Lemma enqueue_cnt visits s a w x : cntT x (tbl (enqueue visits s a w)) = cntT x (tbl s) + b2n (fst w =? x).
Proof.
  unfold enqueue. destruct (addTo visits s (ckey (mem s a)) w (tbl s)) eqn:E; cbn.
  - eapply addTo_cnt; eauto.
  - rewrite cntT_app. cbn. lia.
Qed.
Lemma enqueue_frame visits s a w : nw (enqueue visits s a w) = nw s /\ tr (enqueue visits s a w) = tr s.
Proof. unfold enqueue. destruct (addTo _ _ _ _ _); auto. Qed.
Lemma erase_cnt visits s k l x : cnt x (fst (erase visits s k l)) + cntT x (snd (erase visits s k l)) = cntT x l.
Proof.
  induction l as [|e r IH]; cbn; [auto|]. destruct (hit visits s k e); cbn; [auto|].
  destruct (erase visits s k r) as [ws r']. cbn in *. lia.
Qed.

Definition val (s : state) (v : option nat) : option (nat * nat) :=
  match v with Some a => Some (a, ckey (mem s a)) | None => None end.
Lemma answer_tr s w o v : tr (answer s w o v) = EAns w (val s v) :: tr s.
Proof. unfold answer. destruct o, v; reflexivity. Qed.
Lemma answerAll_tr ws : forall s v, tr (answerAll s ws v) = rev (map (fun w => EAns (fst w) (val s v)) ws) ++ tr s.
Proof.
  induction ws as [|[w o] r IH]; intros s v; cbn; [auto|]. unfold answerAll in *. rewrite IH, answer_tr, <- app_assoc. cbn.
  f_equal. f_equal. apply map_ext. intros x. f_equal. unfold val. destruct v; [|auto].
  destruct (answer_mem s w o (Some n) n) as (E & _). congruence.
Qed.
Lemma ansn_app w l1 l2 : ansn w (l1 ++ l2) = ansn w l1 + ansn w l2.
Proof. induction l1 as [|[] r IH]; cbn; lia. Qed.
Lemma ansn_answers {B} w v (ws : list (nat * B)) : ansn w (rev (map (fun x => EAns (fst x) v) ws)) = cnt w ws.
Proof. induction ws as [|x r IH]; cbn; [auto|]. rewrite ansn_app, IH. cbn. lia. Qed.

Lemma cnt_del {B} w (l : list (nat * B)) i x : nth_error l i = Some x -> cnt w l = cnt w (del l i) + b2n (fst x =? w).
Proof. intros H. destruct (del_mid _ _ _ H) as (l1 & l2 & -> & ->). rewrite !cnt_app. cbn. lia. Qed.

Lemma wake_cnt visits s k v : Cnt s -> Cnt (wake visits s k v).
Proof.
  intros [C1 C2 C3]. unfold wake. set (ws := fst (erase visits s k (tbl s))). set (t := w_tbl s (snd (erase visits s k (tbl s)))).
  destruct (answerAll_frame ws t v) as (_ & TB & TY & NW & _).
  assert (AS : forall w j, In (EAsk w j) (tr (answerAll t ws v)) <-> In (EAsk w j) (tr s)).
  { intros w j. rewrite answerAll_tr, in_app_iff, <- in_rev, in_map_iff. cbn. split; [|auto].
    intros [(x & H & _)|H]; [discriminate|auto]. }
  constructor.
  - intros w. rewrite TB, TY, NW, answerAll_tr, ansn_app, ansn_answers. unfold t; cbn [trys tbl tr nw w_tbl]. specialize (C1 w).
    pose proof (erase_cnt visits s k (tbl s) w) as H. fold ws in H. lia.
  - intros w. rewrite NW. unfold t at 2; cbn [nw w_tbl]. rewrite <- C2. split; intros (j & H); exists j; now apply AS.
  - intros w j j'. rewrite !AS. apply C3.
Qed.

Lemma cnt_frame s t : trys t = trys s -> tbl t = tbl s -> tr t = tr s -> nw t = nw s -> Cnt s -> Cnt t.
Proof. intros A B C D [C1 C2 C3]. constructor; rewrite ?A, ?B, ?C, ?D; auto. Qed.
Lemma unref_frame s a : trys (unref s a) = trys s /\ tbl (unref s a) = tbl s /\ tr (unref s a) = tr s /\ nw (unref s a) = nw s /\
  mvs (unref s a) = mvs s /\ idx (unref s a) = idx s /\ held (unref s a) = held s.
Proof. unfold unref. destruct (_ && _); cbn; auto 10. Qed.
Lemma b2n_S w n : b2n (w <? S n) = b2n (w <? n) + b2n (n =? w).
Proof.
  destruct (Nat.ltb_spec w (S n)), (Nat.ltb_spec w n), (Nat.eqb_spec n w); cbn; lia.
Qed.

(** A lookup starts and is in one place. *)
Lemma ask_cnt s t k e : Cnt s -> nw t = S (nw s) -> (forall x, In x e -> forall w j, x <> EAsk w j) ->
  tr t = e ++ EAsk (nw s) k :: tr s ->
  (forall w, cnt w (trys t) + cntT w (tbl t) + ansn w e = cnt w (trys s) + cntT w (tbl s) + b2n (nw s =? w)) -> Cnt t.
Proof.
  intros [C1 C2 C3] N E T H.
  assert (AS : forall w j, In (EAsk w j) (tr t) <-> (w = nw s /\ j = k) \/ In (EAsk w j) (tr s)).
  { intros w j. rewrite T, in_app_iff. cbn. split.
    - intros [I|[[= <- <-]|I]]; auto. destruct (E _ I w j eq_refl).
    - intros [(-> & ->)|I]; auto. }
  assert (LT : forall j, ~ In (EAsk (nw s) j) (tr s)).
  { intros j I. assert (nw s < nw s) by (apply C2; eauto). lia. }
  constructor.
  - intros w. rewrite N, T, ansn_app, b2n_S. cbn [ansn]. specialize (C1 w). specialize (H w). lia.
  - intros w. rewrite N. split.
    + intros (j & I). apply AS in I. destruct I as [(-> & _)|I]; [lia|]. assert (w < nw s) by (apply C2; eauto). lia.
    + intros L. destruct (Nat.eq_dec w (nw s)) as [->|D]; [exists k; apply AS; auto|].
      destruct (proj2 (C2 w)) as (j & I); [lia|]. exists j. apply AS. auto.
  - intros w i j. rewrite !AS. intros [(-> & ->)|I] [(? & ->)|J]; auto.
    + destruct (LT _ J).
    + subst w. destruct (LT _ I).
    + eauto.
Qed.

Lemma moverStep_cnt visits s i m c s' : Cnt s -> moverStep visits s i m c = Some s' -> Cnt s'.
Proof.
  intros C H. destruct m as [a|a n|a n|a|a|a|a|p|p|p k|p k w|p k v|]; cbn [moverStep] in H; unfold go in H.
  - destruct c as [n|]; [|injection H as <-; now apply (cnt_frame s)].
    destruct (_ || _); [discriminate|]. destruct (indexed s a); injection H as <-; now apply (cnt_frame s).
  - injection H as <-; now apply (cnt_frame s).
  - apply some_inj in H. subst s'. match goal with |- Cnt (unref ?u _) => destruct (unref_frame u n) as (F1 & F2 & F3 & F4 & _) end.
    apply (cnt_frame (wake visits s (ckey (mem s a)) (Some n))); [exact F1|exact F2|exact F3|exact F4|now apply wake_cnt].
  - injection H as <-; now apply (cnt_frame s).
  - injection H as <-; now apply (cnt_frame s).
  - destruct (locked s (ckey (mem s a))); [discriminate|]. injection H as <-.
    destruct C as [C1 C2 C3]. destruct (indexed s a); constructor; cbn; auto.
    all: try (intros w; rewrite <- C2; split; intros (j & I); exists j; cbn in *; intuition discriminate).
    all: intros w k j [I|I] [J|J]; try discriminate; eauto.
  - apply some_inj in H. subst s'. apply (cnt_frame (wake visits s (ckey (mem s a)) None)); auto. now apply wake_cnt.
  - destruct c; injection H as <-; now apply (cnt_frame s).
  - injection H as <-; now apply (cnt_frame s).
  - destruct (idx s k) as [a|]; [|injection H as <-; now apply (cnt_frame s)].
    destruct (cmov (mem s a)); [|injection H as <-; now apply (cnt_frame s)].
    apply some_inj in H. subst s'. destruct (enqueue_frame visits (ask s k) a (nw s, WMover)) as (F1 & F2).
    destruct (enqueue_same visits (ask s k) a (nw s, WMover)) as (_ & _ & F3 & _).
    apply (ask_cnt s _ k [] C); cbn; auto.
    intros w. rewrite F3, enqueue_cnt. cbn. lia.
  - discriminate.
  - apply some_inj in H. subst s'.
    assert (C' : Cnt (w_mvs (wake visits s k v) (updl (mvs (wake visits s k v)) i MDone)))
      by (apply (cnt_frame (wake visits s k v)); auto; now apply wake_cnt).
    destruct v as [b|]; [|exact C']. match goal with |- Cnt (unref ?u _) => destruct (unref_frame u b) as (F1 & F2 & F3 & F4 & _) end.
    eapply cnt_frame; [exact F1|exact F2|exact F3|exact F4|exact C'].
  - discriminate.
Qed.

Lemma step_cnt visits pin s x s' : Cnt s -> step visits pin s x = Some s' -> Cnt s'.
Proof.
  intros C H. destruct x as [k a|k|i|i|i|a|a|a|i c]; cbn [step] in H.
  - destruct (_ || _); [discriminate|].
    set (s1 := w_idx (w_held (w_mem s a (mkC k true true false false)) ((a, k) :: held s)) k (Some a)) in *.
    destruct (idx s k) as [o|]; [|injection H as <-; now apply (cnt_frame s)].
    set (s2 := emit (ask s1 k) (EIns (nw s) k a)) in *.
    destruct (cmov (mem s o)); apply some_inj in H; subst s'.
    + destruct (enqueue_frame visits s2 o (nw s, WRep)) as (F1 & F2).
      destruct (enqueue_same visits s2 o (nw s, WRep)) as (_ & _ & F3 & _).
      apply (ask_cnt s _ k [EIns (nw s) k a] C); auto.
      * intros x [<-|[]]. discriminate.
      * intros w. rewrite F3, enqueue_cnt. cbn. lia.
    + destruct (answer_frame s2 (nw s) WRep (acquired s o)) as (_ & F2 & F3 & F4).
      apply (ask_cnt s _ k [EAns (nw s) (val s2 (acquired s o)); EIns (nw s) k a] C); auto.
      * intros x [<-|[<-|[]]]; discriminate.
      * rewrite answer_tr. reflexivity.
      * intros w. rewrite F2, F3. cbn. lia.
  - destruct (idx s k) as [a|]; [destruct (cmov (mem s a))|]; apply some_inj in H; subst s'.
    + apply (ask_cnt s _ k [] C); cbn; auto; intros; lia.
    + destruct (answer_frame (ask s k) (nw s) WUser (acquired s a)) as (_ & F2 & F3 & F4).
      apply (ask_cnt s _ k [EAns (nw s) (val (ask s k) (acquired s a))] C); auto.
      * intros x [<-|[]]. discriminate.
      * rewrite answer_tr. reflexivity.
      * intros w. rewrite F2, F3. cbn. lia.
    + destruct (answer_frame (ask s k) (nw s) WUser None) as (_ & F2 & F3 & F4).
      apply (ask_cnt s _ k [EAns (nw s) None] C); auto.
      * intros x [<-|[]]. discriminate.
      * intros w. rewrite F2, F3. cbn. lia.
  - destruct (nth_error (trys s) i) as [[w a]|] eqn:N; [|discriminate].
    pose proof (fun x => cnt_del x (trys s) i _ N) as D. destruct C as [C1 C2 C3].
    destruct (cmov (mem s a)); apply some_inj in H; subst s'.
    + destruct (enqueue_frame visits (w_trys s (del (trys s) i)) a (w, WUser)) as (F1 & F2).
      destruct (enqueue_same visits (w_trys s (del (trys s) i)) a (w, WUser)) as (_ & _ & F3 & _).
      constructor; rewrite ?F1, ?F2; auto. intros x. rewrite F3, enqueue_cnt. cbn [trys tbl tr nw w_trys fst]. specialize (C1 x). specialize (D x). cbn [fst] in D. lia.
    + destruct (answer_frame (w_trys s (del (trys s) i)) w WUser (acquired s a)) as (_ & F2 & F3 & F4).
      constructor; rewrite ?F4, answer_tr.
      * intros x. rewrite F2, F3. cbn [trys tbl tr nw w_trys fst ansn]. specialize (C1 x). specialize (D x). cbn [fst] in D. lia.
      * intros x. cbn. rewrite <- C2. split; intros (j & I); exists j; cbn in *; intuition discriminate.
      * intros x j j' [I|I] [J|J]; try discriminate; eauto.
  - destruct (nth_error (held s) i) as [[a k]|]; [|discriminate]. destruct (pinned pin s a); [discriminate|]. injection H as <-.
    match goal with |- Cnt (unref ?u _) => destruct (unref_frame u a) as (F1 & F2 & F3 & F4 & _) end.
    now apply (cnt_frame s).
  - destruct (nth_error (held s) i) as [[a k]|]; [|discriminate]. destruct (locked s _); [discriminate|]. injection H as <-.
    destruct (indexed s a); now apply (cnt_frame s).
  - destruct (_ && _); [|discriminate]. injection H as <-. destruct (indexed s a); now apply (cnt_frame s).
  - destruct (markable s a); [|discriminate]. injection H as <-. now apply (cnt_frame s).
  - destruct (markable s a); [|discriminate]. injection H as <-. now apply (cnt_frame s).
  - destruct (nth_error (mvs s) i) as [m|] eqn:N; [|discriminate]. eapply moverStep_cnt; eauto.
Qed.
Lemma init_cnt : Cnt init.
Proof. constructor; cbn; [intros; reflexivity| |tauto]. intros w. split; [intros (? & [])|lia]. Qed.
