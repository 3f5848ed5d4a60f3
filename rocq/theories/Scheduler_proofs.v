From Verif Require Import Scheduler_model Scheduler_spec.

(** ** Lists *)
Lemma nth_split_upd {A} (l : list A) i x : nth_error l i = Some x ->
  exists l1 l2, l = l1 ++ x :: l2 /\ length l1 = i /\ (forall y, upd i y l = l1 ++ y :: l2) /\
    del i l = l1 ++ l2.
Proof.
  revert i; induction l as [|a l IH]; intros [|i] H; cbn in *; try discriminate.
  - injection H as ->. exists [], l. auto.
  - apply IH in H as (l1 & l2 & -> & <- & HU & HD). exists (a :: l1), l2. cbn.
    rewrite HD. repeat split; auto. intros y. now rewrite HU.
Qed.
Lemma upd_length {A} i (x : A) l : length (upd i x l) = length l.
Proof. revert i; induction l as [|a l IH]; intros [|i]; cbn; auto. Qed.
Lemma nth_upd_same {A} i (x : A) l : i < length l -> nth_error (upd i x l) i = Some x.
Proof. revert i; induction l as [|a l IH]; intros [|i]; cbn; intros; try lia; auto. apply IH; lia. Qed.
Lemma nth_upd_other {A} i j (x : A) l : i <> j -> nth_error (upd i x l) j = nth_error l j.
Proof. revert i j; induction l as [|a l IH]; intros [|i] [|j] H; cbn; auto; try lia. Qed.
Lemma filter_perm {A} (f : A -> bool) l l' : Permutation l l' -> Permutation (filter f l) (filter f l').
Proof.
  induction 1; cbn; auto.
  - destruct (f x); auto.
  - destruct (f x), (f y); auto. constructor.
  - eauto using perm_trans.
Qed.
Lemma flat_map_upd {A B} (f : A -> list B) l i x : nth_error l i = Some x ->
  exists rest, Permutation (flat_map f l) (f x ++ rest) /\
    forall y, Permutation (flat_map f (upd i y l)) (f y ++ rest).
Proof.
  intros H. destruct (nth_split_upd _ _ _ H) as (l1 & l2 & -> & _ & HU & _).
  exists (flat_map f l1 ++ flat_map f l2). split; [|intros y; rewrite HU];
  rewrite flat_map_app; cbn; rewrite !app_assoc; apply Permutation_app_tail, Permutation_app_comm.
Qed.
Lemma reverse_rev a b : reverse a b = rev a ++ b.
Proof. revert b; induction a as [|x a IH]; intros b; cbn; [reflexivity|]. now rewrite IH, <- app_assoc. Qed.

(** ** Tokens: requests under way, and how far they are *)
Notation tok := (req * tphase)%type.
Definition ready (r : req) : tok := (r, TReady).
Definition live (t : tok) : bool := match snd t with TNotified => false | _ => true end.
Definition tokLoop (l : loopst) : list tok :=
  match l with LPoll => [] | LDisp l => map ready l | LWait r l => ready r :: map ready l end.
Definition dtoks (d : disp) : list tok :=
  map ready (d_in d) ++ flat_map tokLoop (d_loops d) ++ filter live (d_tasks d).
Definition toks (ds : list disp) : list tok := flat_map dtoks ds.

Definition loopInv (d : disp) : Prop :=
  if d_claimed d then exists l, d_loops d = [l] /\ (l = LPoll -> d_in d <> []) /\
      (match l with LWait _ _ => d_baton d = false -> d_out d = d_max d | _ => True end) /\
      (match l with LWait _ _ => d_baton d = true -> d_out d < d_max d | _ => True end)
  else (d_in d = [] /\ d_loops d = []) \/ (d_in d <> [] /\ d_loops d = [LPoll]).
Record DInv (d : disp) : Prop := {
  di_loop : loopInv d;
  di_out : d_out d = length (d_tasks d);
  di_max : 0 < d_max d;
  di_le : d_out d <= d_max d
}.

Lemma ready_rev l : Permutation (map ready (reverse l [])) (map ready l).
Proof. rewrite reverse_rev, app_nil_r. apply Permutation_map, Permutation_sym, Permutation_rev. Qed.

Lemma DInv_submit d r : DInv d -> DInv (submitReq d r).
Proof.
  intros [HL HO HM HE]. constructor; cbn; try assumption.
  unfold loopInv in *. cbn. destruct (d_claimed d).
  - destruct HL as (l & E & H1 & H2 & H3). exists l. rewrite E. split; [now destruct (d_in d)|].
    split; [discriminate|]. auto.
  - right. split; [discriminate|]. destruct HL as [[E1 E2]|[E1 E2]].
    + rewrite E1, E2. reflexivity.
    + destruct (d_in d); [congruence|assumption].
Qed.
Lemma dtoks_submit d r : DInv d -> Permutation (dtoks (submitReq d r)) (ready r :: dtoks d).
Proof.
  intros [HL _ _ _]. unfold dtoks. cbn. constructor. apply Permutation_app_head, Permutation_app_tail.
  destruct (d_in d); [|reflexivity]. destruct (d_claimed d); [reflexivity|].
  rewrite flat_map_app. cbn. now rewrite app_nil_r.
Qed.

Lemma loopInv_claim d j l : DInv d -> nth_error (d_loops d) j = Some l ->
  j = 0 /\ d_loops d = [l] /\ (l <> LPoll -> d_claimed d = true).
Proof.
  intros [HL _ _ _] H. unfold loopInv in HL. destruct (d_claimed d).
  - destruct HL as (l' & E & _). rewrite E in *. destruct j as [|[|j]]; try discriminate.
    cbn in H. injection H as ->. auto.
  - destruct HL as [[_ E]|[_ E]]; rewrite E in *; destruct j as [|[|j]]; try discriminate.
    cbn in H. injection H as <-. repeat split; congruence.
Qed.

Lemma loopStep_inv d j d' : DInv d -> loopStep d j = Some d' ->
  DInv d' /\ Permutation (dtoks d') (dtoks d).
Proof.
  intros HD H. unfold loopStep in H. destruct (nth_error (d_loops d) j) as [l|] eqn:E; [|discriminate].
  destruct (loopInv_claim _ _ _ HD E) as (-> & EL & HC).
  pose proof HD as [HL HO HM HE].
  destruct l as [|[|r l]|r l].
  - injection H as <-. split.
    + constructor; cbn; try assumption. rewrite EL. cbn. unfold loopInv. cbn.
      eexists. split; [reflexivity|]. repeat split; discriminate.
    + unfold dtoks. cbn. rewrite EL. cbn. rewrite app_nil_r. apply Permutation_app_tail, ready_rev.
  - assert (HC' : d_claimed d = true) by (apply HC; discriminate).
    rewrite HC' in H.
    destruct (d_in d) as [|x inq] eqn:EI.
    + injection H as <-. split.
      * constructor; cbn; try assumption. unfold loopInv. cbn. left. split; [reflexivity|].
        now rewrite EL.
      * unfold dtoks. cbn. rewrite EL, EI. reflexivity.
    + injection H as <-. split.
      * constructor; cbn; try assumption. unfold loopInv. cbn.
        eexists. rewrite EL. split; [reflexivity|]. repeat split; discriminate.
      * unfold dtoks. cbn. rewrite EL, EI. reflexivity.
  - assert (HC' : d_claimed d = true) by (apply HC; discriminate).
    destruct (Nat.eqb_spec (d_out d) (d_max d)) as [EM|EM]; injection H as <-.
    + split.
      * constructor; cbn; try assumption. unfold loopInv. cbn. rewrite HC', EL. cbn.
        eexists. split; [reflexivity|]. repeat split; discriminate || auto.
      * unfold dtoks. cbn. now rewrite EL.
    + split.
      * constructor; cbn; try assumption; try lia.
        -- unfold loopInv. cbn. rewrite HC', EL. cbn. eexists. split; [reflexivity|]. repeat split; discriminate.
        -- rewrite app_length. cbn. lia.
      * unfold dtoks. cbn. rewrite EL. cbn. rewrite filter_app. cbn. rewrite !app_nil_r.
        apply Permutation_app_head. cbn. rewrite app_assoc. apply Permutation_app_comm.
  - assert (HC' : d_claimed d = true) by (apply HC; discriminate).
    destruct (d_baton d) eqn:EB; [|discriminate]. injection H as <-.
    unfold loopInv in HL. rewrite HC', EL in HL. destruct HL as (l' & E' & _ & _ & H3).
    injection E' as <-. specialize (H3 EB).
    split.
    + constructor; cbn; try assumption; try lia.
      * unfold loopInv. cbn. rewrite HC', EL. cbn. eexists. split; [reflexivity|]. repeat split; discriminate.
      * rewrite app_length. cbn. lia.
    + unfold dtoks. cbn. rewrite EL. cbn. rewrite filter_app. cbn. rewrite !app_nil_r.
      apply Permutation_app_head. cbn. rewrite app_assoc. apply Permutation_app_comm.
Qed.

Lemma DInv_setTask d j t t' : DInv d -> nth_error (d_tasks d) j = Some t ->
  DInv (setTasks d (upd j t' (d_tasks d))) /\
  exists rest, Permutation (dtoks d) (filter live [t] ++ rest) /\
    Permutation (dtoks (setTasks d (upd j t' (d_tasks d)))) (filter live [t'] ++ rest).
Proof.
  intros [HL HO HM HE] H. split.
  - constructor; cbn; try assumption. now rewrite upd_length.
  - destruct (nth_split_upd _ _ _ H) as (l1 & l2 & E & _ & HU & _).
    exists (map ready (d_in d) ++ flat_map tokLoop (d_loops d) ++ filter live l1 ++ filter live l2).
    unfold dtoks. cbn [setTasks d_in d_loops d_tasks]. rewrite HU, E.
    assert (P : forall t, Permutation
        (map ready (d_in d) ++ flat_map tokLoop (d_loops d) ++ filter live (l1 ++ t :: l2))
        (filter live [t] ++ map ready (d_in d) ++ flat_map tokLoop (d_loops d) ++ filter live l1 ++ filter live l2)).
    { intros u. change (u :: l2) with ([u] ++ l2). rewrite !filter_app.
      rewrite !app_assoc. apply Permutation_app_tail.
      rewrite <- !app_assoc.
      rewrite (Permutation_app_comm (filter live l1)). rewrite !app_assoc. apply Permutation_app_tail.
      rewrite <- !app_assoc. rewrite (Permutation_app_comm (flat_map tokLoop _) (filter live [u])).
      rewrite !app_assoc. apply Permutation_app_tail, Permutation_app_comm. }
    split; apply P.
Qed.
Lemma DInv_finish d j r : DInv d -> nth_error (d_tasks d) j = Some (r, TNotified) ->
  let d' := {| d_in := d_in d; d_claimed := d_claimed d; d_loops := d_loops d;
               d_tasks := del j (d_tasks d); d_out := d_out d - 1; d_max := d_max d;
               d_baton := if d_out d - 1 + 1 =? d_max d then true else d_baton d |} in
  DInv d' /\ dtoks d' = dtoks d.
Proof.
  intros [HL HO HM HE] H d'.
  destruct (nth_split_upd _ _ _ H) as (l1 & l2 & E & _ & _ & HD).
  assert (HLen : d_out d = S (length (del j (d_tasks d)))).
  { rewrite HO, HD, E, !app_length. cbn. lia. }
  split.
  - constructor; cbn; try lia. unfold loopInv in *. cbn. destruct (d_claimed d); [|assumption].
    destruct HL as (l & EL & H1 & H2 & H3). exists l. split; [assumption|]. split; [assumption|].
    destruct l as [| |x l]; auto. split.
    + destruct (Nat.eqb_spec (d_out d - 1 + 1) (d_max d)) as [C|C]; [discriminate|].
      intros EB. specialize (H2 EB). lia.
    + destruct (Nat.eqb_spec (d_out d - 1 + 1) (d_max d)) as [C|C]; [lia|].
      intros EB. specialize (H3 EB). lia.
  - unfold dtoks, d'. cbn. rewrite HD, E, !filter_app. cbn. reflexivity.
Qed.

(** ** One shard *)
Definition inShard (n i : nat) (k : N) : bool := (N.to_nat (k mod N.of_nat n) =? i)%nat.
Definition stoks (n i : nat) (ts : list tok) : list tok := filter (fun t => inShard n i (r_key (fst t))) ts.
Definition slog (n i : nat) (es : list event) : list event :=
  filter (fun e => inShard n i (r_key (evReq e))) es.

Definition qrel (r : req) (ph : tphase) (pending : list req) (q : fifo) : Prop :=
  match ph with
  | TReady => q = {| f_jobs := r :: pending; f_busy := false |}
  | TRunning => q = {| f_jobs := r :: pending; f_busy := true |}
  | TExec => q = {| f_jobs := pending; f_busy := false |}
  | TNotified => False
  end.

Definition SI (stopped : bool) (sh : shard) (ts : list tok) (q : fifo) : Prop :=
  (sh_spool sh = false /\ sh_pending sh = [] /\ ts = [] /\ q = idle) \/
  (sh_spool sh = true /\ exists r ph, Permutation ts [(r, ph)] /\ qrel r ph (sh_pending sh) q) \/
  (sh_spool sh = true /\ stopped = true /\ ts = [] /\ f_busy q = false).

Definition ShInv (stopped : bool) (n i : nat) (sh : shard) (ts : list tok) (es : list event) : Prop :=
  Forall (fun r => inShard n i (r_key r) = true) (sh_pending sh) /\
  exists q, fifoRun idle (slog n i es) = Some q /\ SI stopped sh (stoks n i ts) q.

Record Inv (s : sched) : Prop := {
  i_n : 0 < length (s_shards s);
  i_r : 0 < s_nread s;
  i_w : 0 < s_nwrite s;
  i_d : length (s_disps s) = s_nread s + s_nwrite s;
  i_disp : Forall DInv (s_disps s);
  i_sh : forall i sh, nth_error (s_shards s) i = Some sh ->
           ShInv (s_stopped s) (length (s_shards s)) i sh (toks (s_disps s)) (s_log s)
}.

Lemma fifoRun_app q a b : fifoRun q (a ++ b) =
  match fifoRun q a with None => None | Some q' => fifoRun q' b end.
Proof. revert q; induction a as [|e a IH]; intros q; cbn; [reflexivity|]. destruct (fifoStep q e); auto. Qed.
Lemma reqEqb_refl r : reqEqb r r = true.
Proof. unfold reqEqb. now rewrite Nat.eqb_refl, N.eqb_refl, Bool.eqb_reflx. Qed.
Lemma reqEqb_eq a b : reqEqb a b = true -> a = b.
Proof.
  unfold reqEqb. rewrite !andb_true_iff, Nat.eqb_eq, N.eqb_eq, Bool.eqb_true_iff.
  destruct a, b; cbn. intros [[-> ->] ->]. reflexivity.
Qed.

Lemma SI_perm st sh ts ts' q : Permutation ts' ts -> SI st sh ts q -> SI st sh ts' q.
Proof.
  intros P [(A & B & C & D)|[(A & r & ph & C & D)|(A & B & C & D)]].
  - left. subst. apply Permutation_sym, Permutation_nil in P. auto.
  - right. left. split; [assumption|]. exists r, ph. split; [|assumption]. now rewrite P.
  - right. right. subst. apply Permutation_sym, Permutation_nil in P. auto.
Qed.
Lemma ShInv_perm st n i sh ts ts' es : Permutation ts' ts -> ShInv st n i sh ts es -> ShInv st n i sh ts' es.
Proof.
  intros P (A & q & B & C). split; [assumption|]. exists q. split; [assumption|].
  eapply SI_perm; [|exact C]. now apply filter_perm.
Qed.
Lemma slog_snoc n i es e : slog n i (es ++ [e]) =
  slog n i es ++ (if inShard n i (r_key (evReq e)) then [e] else []).
Proof. unfold slog. rewrite filter_app. cbn. reflexivity. Qed.
Lemma stoks_cons n i t ts : stoks n i (t :: ts) =
  if inShard n i (r_key (fst t)) then t :: stoks n i ts else stoks n i ts.
Proof. reflexivity. Qed.
Lemma inShard_i n i k : inShard n i k = true <-> N.to_nat (k mod N.of_nat n) = i.
Proof. apply Nat.eqb_eq. Qed.
Lemma shardOf_lt s k : 0 < length (s_shards s) -> shardOf s k < length (s_shards s).
Proof. intros H. unfold shardOf. pose proof (N.mod_lt k (N.of_nat (length (s_shards s)))). lia. Qed.
Lemma dispOf_lt s r : Inv s -> dispOf s r < length (s_disps s).
Proof.
  intros [_ Hr Hw Hd _ _]. rewrite Hd. unfold dispOf.
  pose proof (N.mod_lt (r_key r) (N.of_nat (s_nread s))).
  pose proof (N.mod_lt (r_key r) (N.of_nat (s_nwrite s))). destruct (r_read r); lia.
Qed.

(** The singleton case of a shard that owns a token. *)
Lemma SI_one st sh t ts q : SI st sh (t :: ts) q ->
  sh_spool sh = true /\ ts = [] /\ qrel (fst t) (snd t) (sh_pending sh) q.
Proof.
  intros [(_ & _ & C & _)|[(A & r & ph & C & D)|(_ & _ & C & _)]]; try discriminate.
  split; [assumption|].
  pose proof (Permutation_length C) as L. destruct ts; [|cbn in L; lia].
  apply Permutation_length_1 in C as ->. auto.
Qed.

(** ** The three kinds of steps that touch tokens *)
Lemma submit_disps s r : Inv s ->
  exists d, nth_error (s_disps s) (dispOf s r) = Some d /\ DInv d /\
    Forall DInv (upd (dispOf s r) (submitReq d r) (s_disps s)) /\
    Permutation (toks (upd (dispOf s r) (submitReq d r) (s_disps s))) (ready r :: toks (s_disps s)).
Proof.
  intros HI. pose proof (dispOf_lt s r HI) as HL.
  destruct (nth_error (s_disps s) (dispOf s r)) as [d|] eqn:E; [|apply nth_error_None in E; lia].
  exists d. split; [reflexivity|]. destruct HI as [_ _ _ _ HF _].
  assert (HD : DInv d) by (eapply Forall_forall; [exact HF|eapply nth_error_In; eassumption]).
  split; [assumption|].
  destruct (nth_split_upd _ _ _ E) as (l1 & l2 & E1 & _ & HU & _). split.
  - rewrite HU. rewrite E1 in HF. apply Forall_app in HF as [F1 F2]. inversion F2; subst.
    apply Forall_app. split; [assumption|]. constructor; [now apply DInv_submit|assumption].
  - destruct (flat_map_upd dtoks _ _ _ E) as (rest & P1 & P2). unfold toks.
    rewrite P2, P1, dtoks_submit by assumption. reflexivity.
Qed.

Lemma disp_update ds i d d' : Forall DInv ds -> nth_error ds i = Some d -> DInv d' ->
  Forall DInv (upd i d' ds).
Proof.
  intros HF E HD. destruct (nth_split_upd _ _ _ E) as (l1 & l2 & -> & _ & HU & _). rewrite HU.
  apply Forall_app in HF as [F1 F2]. inversion F2; subst. apply Forall_app. split; auto.
Qed.

Lemma stoks_app n i a b : stoks n i (a ++ b) = stoks n i a ++ stoks n i b.
Proof. apply filter_app. Qed.
