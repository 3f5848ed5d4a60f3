From Verif Require Import Bytes Expiry_model Expiry_spec.
Local Open Scope N_scope.

Definition enc (d : deadline) (e : N) : Prop :=
  match d with None => e = 0 | Some t => e = t /\ t <> 0 end.
Definition Inv (s : st) (u : uview) : Prop :=
  (forall k it, ram s k = Some it -> exists d, u k = Some (r_val it, d) /\ enc d (r_exp it)) /\
  (forall k f, flash s k = Some f -> exists d, u k = Some (f_val f, d) /\ enc d (f_exp f)).

Lemma upd_eq {A} (f : N -> A) k a : upd f k a k = a.
Proof. unfold upd. now rewrite N.eqb_refl. Qed.
Lemma upd_neq {A} (f : N -> A) k a k' : k' <> k -> upd f k a k' = f k'.
Proof. intros H. unfold upd. now apply N.eqb_neq in H as ->. Qed.

Lemma u32_small x : x < 2 ^ 32 -> u32 x = x.
Proof. intros H. unfold u32. change (2 ^ 32) with 4294967296 in H. now apply N.mod_small. Qed.

Lemma enc_new clk cr ttl :
  (if cr =? 0 then clk else cr) + ttl < 2 ^ 32 ->
  enc (if ttl =? 0 then None else Some ((if cr =? 0 then clk else cr) + ttl)) (newExpiry clk cr ttl).
Proof.
  intros H. unfold newExpiry, newCreation. destruct (N.eqb_spec ttl 0); cbn [enc]; [reflexivity|].
  split; [now apply u32_small|lia].
Qed.

Lemma tl_hit st clk e x tl : isExpiredTL st clk e = (x, tl) -> x = false -> e = 0 \/ clk <= e.
Proof.
  unfold isExpiredTL. destruct (N.eqb_spec e 0); [auto|].
  destruct (N.ltb_spec e st); intros E ->; [discriminate|].
  apply pair_equal_spec in E as [E _]. right. now apply N.ltb_ge.
Qed.
Lemma enc_alive d e clk : enc d e -> e = 0 \/ clk <= e -> alive d clk.
Proof. destruct d; cbn; [intros [-> ?] [?|?]; [congruence|assumption]|auto]. Qed.

(** ** Lookups *)
Lemma findRam_spec s t k clk r s' u :
  Inv s u -> findRam s t k clk = (r, s') ->
  ram s' = ram s /\ flash s' = flash s /\
  (forall v, r = RHit v -> exists it d, ram s k = Some it /\ v = r_val it /\
     u k = Some (v, d) /\ enc d (r_exp it) /\ alive d clk) /\
  (r = RMiss -> ram s k = None).
Proof.
  intros [I _] E. unfold findRam in E. destruct (ram s k) as [it|] eqn:ER.
  - destruct (isExpiredTL (stale s t) clk (r_exp it)) as [x tl] eqn:EX.
    destruct x; inversion E; subst; cbn [ram flash]; (split; [reflexivity|split; [reflexivity|split]]);
      try discriminate.
    intros v Ev. inversion Ev; subst v.
    destruct (I k it ER) as (d & Hu & He). exists it, d. repeat split; try assumption.
    eapply enc_alive; [exact He|]. eapply tl_hit; [exact EX|reflexivity].
  - inversion E; subst. repeat split; auto; discriminate.
Qed.

Lemma at_hit clk e : isExpiredAt clk e = false -> e = 0 \/ clk <= e.
Proof.
  unfold isExpiredAt. intros H. apply andb_false_iff in H as [H|H].
  - apply N.ltb_ge in H. lia.
  - apply N.ltb_ge in H. auto.
Qed.

Lemma findFull_spec s t k c1 c2 r s' u :
  Inv s u -> findFull s t k c1 c2 = (r, s') ->
  Inv s' u /\ flash s' = flash s /\
  (forall k', k' <> k -> ram s' k' = ram s k') /\
  (forall v, r = RHit v -> exists it d, ram s' k = Some it /\ v = r_val it /\
     u k = Some (v, d) /\ enc d (r_exp it) /\ (alive d c1 \/ alive d c2)).
Proof.
  intros I E. unfold findFull in E. destruct (findRam s t k c1) as [r1 s1] eqn:E1.
  destruct (findRam_spec _ _ _ _ _ _ _ I E1) as (R1 & F1 & H1 & M1).
  assert (I1 : Inv s1 u) by (destruct I; split; [rewrite R1|rewrite F1]; assumption).
  destruct r1 as [|v1| | |b1];
    try (inversion E; subst r s'; split; [exact I1|]; split; [exact F1|];
         split; [intros k' _; now rewrite R1|]; intros v Ev; try discriminate;
         destruct (H1 v Ev) as (it & d & A & B & C & D & G); rewrite R1; exists it, d; tauto).
  destruct (flash s1 k) as [f|] eqn:EF.
  2:{ inversion E; subst r s'. split; [exact I1|]. split; [exact F1|].
      split; [intros k' _; now rewrite R1|]. discriminate. }
  destruct (isExpiredAt c2 (f_exp f)) eqn:EX; inversion E; subst r s'; cbn [ram flash].
  { split; [exact I1|]. split; [exact F1|]. split; [intros k' _; now rewrite R1|]. discriminate. }
  destruct I1 as [IR IF]. destruct (IF k f EF) as (d & Hu & He).
  split; [|split; [exact F1|split]].
  - split; [|exact IF]. cbn [ram]. intros k' it Hr. unfold upd in Hr.
    destruct (N.eqb_spec k' k) as [->|Hn].
    + inversion Hr; subst it. cbn [r_val r_exp]. eauto.
    + now apply IR.
  - intros k' Hn. rewrite upd_neq by assumption. now rewrite R1.
  - intros v Ev. inversion Ev; subst v. rewrite upd_eq.
    eexists; exists d. split; [reflexivity|]. cbn [r_val r_exp].
    split; [reflexivity|]. split; [assumption|]. split; [assumption|].
    right. eapply enc_alive; [exact He|]. now apply at_hit.
Qed.

Lemma findToWrite_spec s t k c1 c2 r s' u :
  Inv s u -> findToWrite s t k c1 c2 = (r, s') ->
  Inv s' u /\
  (forall v, r = RHit v -> exists it d, ram s' k = Some it /\ v = r_val it /\
     u k = Some (v, d) /\ enc d (r_exp it) /\ (alive d c1 \/ alive d c2)) /\
  (forall v it, r = RHit v -> ram s' k = Some it -> r_clean it = false).
Proof.
  intros I E. unfold findToWrite in E. destruct (findFull s t k c1 c2) as [r1 s1] eqn:E1.
  destruct (findFull_spec _ _ _ _ _ _ _ _ I E1) as (I1 & F1 & K1 & H1).
  destruct r1 as [|v1| | |b1];
    try (inversion E; subst r s'; split; [exact I1|]; split; discriminate).
  destruct (H1 v1 eq_refl) as (it & d & A & B & C & D & G). rewrite A in E.
  destruct I1 as [IR IF].
  destruct (r_clean it) eqn:EC; inversion E; subst r s'.
  - split; [|split].
    + split; cbn [ram flash]; intros k' x Hx; unfold upd in Hx; destruct (N.eqb_spec k' k) as [->|Hn].
      * inversion Hx; subst x. cbn [r_val r_exp]. now apply IR.
      * now apply IR.
      * discriminate.
      * now apply IF.
    + intros v Ev. inversion Ev; subst v. cbn [ram]. rewrite upd_eq. eexists; exists d.
      split; [reflexivity|]. cbn [r_val r_exp]. tauto.
    + intros v x _ Hx. cbn [ram] in Hx. rewrite upd_eq in Hx. inversion Hx. reflexivity.
  - split; [split; assumption|]. split.
    + intros v Ev. inversion Ev; subst v. exists it, d. tauto.
    + intros v x _ Hx. rewrite A in Hx. inversion Hx; subst. assumption.
Qed.

(** Flash holds nothing for a key whose RAM item is not clean. *)
Definition Coh (s : st) : Prop :=
  forall k it, ram s k = Some it -> r_clean it = false -> flash s k = None.

Lemma findRam_frame s t k clk r s' : findRam s t k clk = (r, s') -> ram s' = ram s /\ flash s' = flash s.
Proof.
  unfold findRam. destruct (ram s k); [|intros E; inversion E; auto].
  destruct (isExpiredTL _ _ _) as [[] ?]; intros E; inversion E; auto.
Qed.
Lemma findFull_coh s t k c1 c2 r s' : Coh s -> findFull s t k c1 c2 = (r, s') -> Coh s'.
Proof.
  intros C E. unfold findFull in E. destruct (findRam s t k c1) as [r1 s1] eqn:E1.
  apply findRam_frame in E1 as [R1 F1].
  assert (C1 : Coh s1) by (unfold Coh; rewrite R1, F1; exact C).
  destruct r1; try (inversion E; subst; assumption).
  destruct (flash s1 k) as [f|] eqn:EF; [|inversion E; subst; assumption].
  destruct (isExpiredAt c2 (f_exp f)); inversion E; subst; [assumption|].
  intros k' it Hr Hc. cbn [ram flash] in *. unfold upd in Hr.
  destruct (N.eqb_spec k' k); [inversion Hr; subst it; discriminate|]. eapply C1; eassumption.
Qed.
Lemma findToWrite_coh s t k c1 c2 r s' : Coh s -> findToWrite s t k c1 c2 = (r, s') -> Coh s'.
Proof.
  intros C E. unfold findToWrite in E. destruct (findFull s t k c1 c2) as [r1 s1] eqn:E1.
  apply findFull_coh in E1; [|assumption].
  destruct r1; try (inversion E; subst; assumption).
  destruct (ram s1 k) as [it|] eqn:ER; [|inversion E; subst; assumption].
  destruct (r_clean it); inversion E; subst; [|assumption].
  intros k' it' Hr Hc. cbn [ram flash] in *. unfold upd in *.
  destruct (N.eqb_spec k' k); [reflexivity|]. eapply E1; eassumption.
Qed.

Lemma setExp_spec s k e al r s' u d v it :
  Inv s u -> Coh s -> ram s k = Some it -> r_clean it = false -> u k = Some (v, d) -> v = r_val it ->
  setExp s k e al = (r, s') ->
  Coh s' /\
  ((al = false /\ r = RBool false /\ s' = s) \/
   (al = true /\ r = RBool true /\
    forall d', enc d' e -> Inv s' (upd u k (Some (v, d'))))).
Proof.
  intros [IR IF] C HR HC HU HV E. unfold setExp in E. rewrite HR in E.
  destruct al; inversion E; subst r s'; [|split; auto].
  split.
  - intros k' it' Hr Hc. cbn [ram flash] in *. unfold upd in Hr.
    destruct (N.eqb_spec k' k) as [->|]; [eapply C; eassumption|eapply C; eassumption].
  - right. split; [reflexivity|]. split; [reflexivity|]. intros d' Hd.
    split; cbn [ram flash]; intros k' x Hx.
    + unfold upd in *. destruct (N.eqb_spec k' k) as [->|Hn].
      * inversion Hx; subst x. cbn [r_val r_exp]. exists d'. subst v. auto.
      * now apply IR.
    + unfold upd. destruct (N.eqb_spec k' k) as [->|Hn]; [|now apply IF].
      rewrite (C k it HR HC) in Hx. discriminate.
Qed.

Lemma findRam_nobool s t k c b s' : findRam s t k c <> (RBool b, s').
Proof.
  unfold findRam. destruct (ram s k); [|discriminate].
  destruct (isExpiredTL _ _ _) as [[] ?]; discriminate.
Qed.
Lemma findToWrite_nobool s t k c1 c2 b s' : findToWrite s t k c1 c2 <> (RBool b, s').
Proof.
  intros E. unfold findToWrite in E. destruct (findFull s t k c1 c2) as [r2 s2] eqn:E2.
  assert (r2 = RBool b).
  { destruct r2; try discriminate E; [|congruence].
    destruct (ram s2 k); [destruct (r_clean _)|]; discriminate E. }
  subst r2. unfold findFull in E2. destruct (findRam s t k c1) as [r3 s3] eqn:E3.
  destruct r3; try discriminate E2; [|now apply findRam_nobool in E3].
  destruct (flash s3 k); [destruct (isExpiredAt _ _)|]; discriminate E2.
Qed.

(** Without flash nothing is ever on flash. *)
Definition NoFl (hf : bool) (s : st) : Prop :=
  hf = false -> (forall k, flash s k = None).

Definition Full hf s u := Inv s u /\ Coh s /\ NoFl hf s.

Lemma fullset hf s0 t k c1 c2 e al r s' u d' :
  Full hf s0 u -> enc d' e ->
  (let '(r0, s1) := if hf then findToWrite s0 t k c1 c2 else findRam s0 t k c1 in
   match r0 with RHit _ => setExp s1 k e al | _ => (r0, s1) end) = (r, s') ->
  Full hf s' (match r, u k with RBool true, Some (v, _) => upd u k (Some (v, d')) | _, _ => u end).
Proof.
  intros (I & C & NF) He E. destruct hf.
  - destruct (findToWrite s0 t k c1 c2) as [r1 s1] eqn:E1.
    pose proof (findToWrite_coh _ _ _ _ _ _ _ C E1) as C1.
    destruct (findToWrite_spec _ _ _ _ _ _ _ _ I E1) as (I1 & H1 & K1).
    destruct r1 as [|v1| | |b1].
    1,3,4: inversion E; subst r s'; split; [exact I1|split; [exact C1|intros A; discriminate]].
    2:{ exfalso. exact (findToWrite_nobool _ _ _ _ _ _ _ E1). }
    destruct (H1 v1 eq_refl) as (it & d & A & B & Cu & D & G).
    destruct (setExp_spec s1 k e al r s' u d v1 it I1 C1 A (K1 v1 it eq_refl A) Cu B E)
      as (C2 & [(-> & -> & ->)|(-> & -> & HI)]).
    + split; [exact I1|split; [exact C1|intros X; discriminate]].
    + rewrite Cu. split; [now apply HI|split; [exact C2|intros X; discriminate]].
  - destruct (findRam s0 t k c1) as [r1 s1] eqn:E1.
    pose proof (findRam_frame _ _ _ _ _ _ E1) as [R1 F1].
    destruct (findRam_spec _ _ _ _ _ _ _ I E1) as (_ & _ & H1 & _).
    assert (I1 : Inv s1 u) by (destruct I; split; [rewrite R1|rewrite F1]; assumption).
    assert (C1 : Coh s1) by (unfold Coh; rewrite R1, F1; exact C).
    assert (N1 : NoFl false s1) by (unfold NoFl; rewrite F1; exact NF).
    destruct r1 as [|v1| | |b1].
    1,3,4: inversion E; subst r s'; split; [exact I1|split; assumption].
    2:{ exfalso. unfold findRam in E1. destruct (ram s0 k); [|discriminate].
        destruct (isExpiredTL _ _ _) as [[] ?]; discriminate. }
    destruct (H1 v1 eq_refl) as (it & d & A & B & Cu & D & G).
    unfold setExp in E. rewrite R1, A in E.
    destruct al; inversion E; subst r s'; [|split; [exact I1|split; assumption]].
    rewrite Cu. destruct I1 as [IR IF]. split; [|split].
    + split; cbn [ram flash]; intros k' x Hx; [|rewrite N1 in Hx by reflexivity; discriminate].
      unfold upd in *. destruct (N.eqb_spec k' k) as [->|Hn].
      * inversion Hx; subst x. cbn [r_val r_exp]. exists d'. subst v1. auto.
      * rewrite <- R1 in Hx. now apply IR.
    + intros k' it' _ _. cbn [flash]. now apply N1.
    + exact N1.
Qed.

Lemma step_inv hf s u o r s' :
  Full hf s u -> fits o -> step hf s o = (r, s') -> Full hf s' (uapply hf u o r).
Proof.
  intros HF Hfit E. pose proof HF as ((IR & IF) & C & NF).
  destruct o as [k v ttl cr clk|k v ttl cr clk|t k c1 c2|t k c|k|t k e c1 c2 al|t k ttl c1 c2 c3 al|k|t k clk ad|k nt|t k c0 c];
    cbn [step uapply fits] in *.
  - inversion E; subst r s'. split; [|split].
    + split; cbn [ram flash]; intros k' x Hx; unfold upd in *; destruct (N.eqb_spec k' k) as [->|Hn].
      * inversion Hx; subst x. cbn [r_val r_exp]. eexists. split; [reflexivity|]. now apply enc_new.
      * now apply IR.
      * discriminate.
      * now apply IF.
    + intros k' x Hx Hc. cbn [ram flash] in *. unfold upd in *.
      destruct (N.eqb_spec k' k); [reflexivity|]. eapply C; eassumption.
    + intros Hh k'. cbn [flash]. unfold upd. destruct (k' =? k); [reflexivity|]. now apply NF.
  - destruct hf; [inversion E; subst r s'; exact HF|].
    destruct (ram s k) as [it|] eqn:ER; inversion E; subst r s'; [exact HF|].
    split; [|split].
    + split; cbn [ram flash]; intros k' x Hx; [|rewrite NF in Hx by reflexivity; discriminate].
      unfold upd in *; destruct (N.eqb_spec k' k) as [->|Hn].
      * inversion Hx; subst x. cbn [r_val r_exp]. eexists. split; [reflexivity|]. now apply enc_new.
      * now apply IR.
    + intros k' x _ _. cbn [flash]. now apply NF.
    + exact NF.
  - destruct hf.
    + split; [|split; [eapply findFull_coh; eassumption|intros X; discriminate]].
      eapply findFull_spec; [split; eassumption|eassumption].
    + pose proof (findRam_frame _ _ _ _ _ _ E) as [R1 F1].
      unfold Full, Inv, Coh, NoFl. rewrite R1, F1. exact HF.
  - pose proof (findRam_frame _ _ _ _ _ _ E) as [R1 F1].
    unfold Full, Inv, Coh, NoFl. rewrite R1, F1. exact HF.
  - inversion E; subst. exact HF.
  - eapply fullset; [exact HF| |exact E]. destruct (N.eqb_spec e 0); cbn; auto.
  - eapply fullset; [exact HF| |exact E]. cbn. unfold extendedExpiry.
    destruct Hfit. rewrite u32_small by assumption. lia.
  - inversion E; subst r s'. split; [|split].
    + split; cbn [ram flash]; intros k' x Hx; unfold upd in *; destruct (N.eqb_spec k' k) as [->|Hn];
        try discriminate; [now apply IR|now apply IF].
    + intros k' x Hx Hc. cbn [ram flash] in *. unfold upd in *.
      destruct (N.eqb_spec k' k); [reflexivity|]. eapply C; eassumption.
    + intros Hh k'. cbn [flash]. unfold upd. destruct (k' =? k); [reflexivity|]. now apply NF.
  - destruct (ram s k) as [it|] eqn:ER; [|inversion E; subst; exact HF].
    destruct (isExpiredTL (stale s t) clk (r_exp it)) as [x tl]. inversion E; subst r s'. clear E.
    set (w := hf && negb x && (negb (r_clean it) || r_evicted it) && ad) in *.
    assert (Hw : w = true -> hf = true).
    { unfold w. intros X. apply andb_prop in X as [X _]. apply andb_prop in X as [X _].
      apply andb_prop in X as [X _]. exact X. }
    split; [|split].
    + split; cbn [ram flash]; intros k' y Hy.
      * unfold upd in Hy. destruct (N.eqb_spec k' k); [discriminate|]. now apply IR.
      * destruct w; [|now apply IF]. unfold upd in Hy. destruct (N.eqb_spec k' k) as [->|].
        -- inversion Hy; subst y. cbn [f_val f_exp]. now apply IR.
        -- now apply IF.
    + intros k' y Hy Hc. cbn [ram flash] in *. unfold upd in Hy.
      destruct (N.eqb_spec k' k) as [->|Hn]; [discriminate|].
      destruct w; [rewrite upd_neq by assumption|]; eapply C; eassumption.
    + intros Hh k'. cbn [flash]. destruct w; [rewrite Hw in Hh by reflexivity; discriminate|]. now apply NF.
  - inversion E; subst r s'. clear E. split; [|split].
    + split; cbn [ram flash]; intros k' y Hy.
      * destruct (ram s k) as [it|] eqn:ER; [|now apply IR].
        destruct (nt && r_clean it); [|now apply IR].
        unfold upd in Hy. destruct (N.eqb_spec k' k) as [->|]; [|now apply IR].
        inversion Hy; subst y. cbn [r_val r_exp]. now apply IR.
      * unfold upd in Hy. destruct (N.eqb_spec k' k); [discriminate|]. now apply IF.
    + intros k' y Hy Hc. cbn [ram flash] in *. unfold upd at 1.
      destruct (N.eqb_spec k' k); [reflexivity|].
      destruct (ram s k) as [it|] eqn:ER; [|eapply C; eassumption].
      destruct (nt && r_clean it); [rewrite upd_neq in Hy by assumption|]; eapply C; eassumption.
    + intros Hh k'. cbn [flash]. unfold upd. destruct (k' =? k); [reflexivity|]. now apply NF.
  - destruct (ram s k) as [it|] eqn:ER; [|inversion E; subst; exact HF].
    destruct (isExpiredAt c0 (r_exp it)); [|inversion E; subst; exact HF].
    destruct (isExpiredTL (stale s t) c (r_exp it)) as [x tl]. inversion E; subst r s'. clear E.
    split; [|split].
    + split; cbn [ram flash]; intros k' y Hy; [|now apply IF].
      destruct x; [|now apply IR]. unfold upd in Hy. destruct (N.eqb_spec k' k); [discriminate|]. now apply IR.
    + intros k' y Hy Hc. cbn [ram flash] in *.
      destruct x; [|eapply C; eassumption]. unfold upd in Hy. destruct (N.eqb_spec k' k); [discriminate|].
      eapply C; eassumption.
    + exact NF.
Qed.

Lemma run_inv hf : forall os s u, Full hf s u -> Forall fits os ->
  Full hf (run hf s os) (uviewOf hf s u os).
Proof.
  induction os as [|o os IH]; intros s u HF F; cbn [run uviewOf]; [exact HF|].
  inversion F; subst. destruct (step hf s o) as [r s'] eqn:E. cbn [fst snd].
  apply IH; [|assumption]. eapply step_inv; eassumption.
Qed.
Lemma init_full hf : Full hf init (fun _ => None).
Proof. repeat split; discriminate. Qed.

(** ** Stale times under a clock that never goes backwards *)
Fixpoint lastClock (from : N) (cs : list N) : N :=
  match cs with [] => from | c :: r => lastClock c r end.
Lemma nondec_app from a b :
  nondecreasing from (a ++ b) <-> nondecreasing from a /\ nondecreasing (lastClock from a) b.
Proof.
  revert from; induction a as [|x a IH]; intros from; cbn; [tauto|].
  rewrite IH. tauto.
Qed.
Lemma nondec_last from cs : nondecreasing from cs -> from <= lastClock from cs.
Proof.
  revert from; induction cs as [|x cs IH]; intros from; cbn; [lia|]. intros [H1 H2].
  apply IH in H2. lia.
Qed.

Lemma tl_stale st clk e x tl b : isExpiredTL st clk e = (x, tl) -> st <= b -> clk <= b -> tl <= b.
Proof.
  unfold isExpiredTL. destruct (e =? 0); [intros E; inversion E; lia|].
  destruct (e <? st); intros E; inversion E; lia.
Qed.
Lemma tl_exact st clk e : st <= clk -> fst (isExpiredTL st clk e) = isExpiredAt clk e.
Proof.
  intros H. unfold isExpiredTL, isExpiredAt. destruct (N.eqb_spec e 0) as [->|]; [reflexivity|].
  destruct (N.ltb_spec 0 e); [|lia]. cbn [andb].
  destruct (N.ltb_spec e st); cbn [fst]; [|reflexivity].
  symmetry. apply N.ltb_lt. lia.
Qed.

Definition StaleLe (s : st) (b : N) := forall t, stale s t <= b.

Lemma findRam_stale s t k c r s' b : findRam s t k c = (r, s') -> StaleLe s b -> b <= c -> StaleLe s' c.
Proof.
  intros E H Hb. unfold findRam in E. destruct (ram s k).
  - destruct (isExpiredTL _ _ _) as [x tl] eqn:EX.
    assert (Htl : tl <= c) by (eapply tl_stale; [exact EX|specialize (H t); lia|lia]).
    destruct x; inversion E; subst; intros t'; cbn [stale]; unfold upd;
      (destruct (t' =? t); [assumption|specialize (H t'); lia]).
  - inversion E; subst. intros t'. specialize (H t'). lia.
Qed.
Lemma stale_mono s b b' : StaleLe s b -> b <= b' -> StaleLe s b'.
Proof. intros H L t. specialize (H t). lia. Qed.
Lemma findFull_stale s t k c c2 r s' b :
  findFull s t k c c2 = (r, s') -> StaleLe s b -> b <= c -> StaleLe s' c.
Proof.
  intros E H Hb. unfold findFull in E. destruct (findRam s t k c) as [r1 s1] eqn:E1.
  apply findRam_stale with (b := b) in E1; [|assumption|assumption].
  destruct r1; try (inversion E; subst; assumption).
  destruct (flash s1 k); [destruct (isExpiredAt _ _)|]; inversion E; subst; assumption.
Qed.
Lemma findToWrite_stale s t k c c2 r s' b :
  findToWrite s t k c c2 = (r, s') -> StaleLe s b -> b <= c -> StaleLe s' c.
Proof.
  intros E H Hb. unfold findToWrite in E. destruct (findFull s t k c c2) as [r1 s1] eqn:E1.
  apply findFull_stale with (b := b) in E1; [|assumption|assumption].
  destruct r1; try (inversion E; subst; assumption).
  destruct (ram s1 k); [destruct (r_clean _)|]; inversion E; subst; assumption.
Qed.
Lemma setExp_stale s k e al r s' : setExp s k e al = (r, s') -> stale s' = stale s.
Proof. unfold setExp. destruct (ram s k); [destruct al|]; intros E; inversion E; reflexivity. Qed.

Lemma step_stale hf s o r s' b :
  step hf s o = (r, s') -> StaleLe s b -> nondecreasing b (clocks o) ->
  StaleLe s' (lastClock b (clocks o)).
Proof.
  intros E H Hn. pose proof (nondec_last _ _ Hn) as HL.
  destruct o as [k v ttl cr clk|k v ttl cr clk|t k c1 c2|t k c|k|t k e c1 c2 al|t k ttl c1 c2 c3 al|k|t k clk ad|k nt|t k c0 c];
    cbn [step clocks nondecreasing lastClock] in *.
  - inversion E; subst. eapply stale_mono; eassumption.
  - destruct hf; [|destruct (ram s k)]; inversion E; subst; eapply stale_mono; eassumption.
  - apply stale_mono with c1; [|lia].
    destruct hf; [eapply findFull_stale|eapply findRam_stale]; try eassumption; lia.
  - eapply findRam_stale; try eassumption; lia.
  - inversion E; subst. assumption.
  - assert (StaleLe s' c1).
    { destruct hf.
      - destruct (findToWrite s t k c1 c2) as [r1 s1] eqn:E1.
        apply findToWrite_stale with (b := b) in E1; [|assumption|lia].
        destruct r1; try (inversion E; subst; assumption).
        apply setExp_stale in E. intros t'. rewrite E. apply E1.
      - destruct (findRam s t k c1) as [r1 s1] eqn:E1.
        apply findRam_stale with (b := b) in E1; [|assumption|lia].
        destruct r1; try (inversion E; subst; assumption).
        apply setExp_stale in E. intros t'. rewrite E. apply E1. }
    eapply stale_mono; [eassumption|lia].
  - assert (StaleLe s' c1).
    { destruct hf.
      - destruct (findToWrite s t k c1 c2) as [r1 s1] eqn:E1.
        apply findToWrite_stale with (b := b) in E1; [|assumption|lia].
        destruct r1; try (inversion E; subst; assumption).
        apply setExp_stale in E. intros t'. rewrite E. apply E1.
      - destruct (findRam s t k c1) as [r1 s1] eqn:E1.
        apply findRam_stale with (b := b) in E1; [|assumption|lia].
        destruct r1; try (inversion E; subst; assumption).
        apply setExp_stale in E. intros t'. rewrite E. apply E1. }
    eapply stale_mono; [eassumption|lia].
  - inversion E; subst. assumption.
  - destruct (ram s k) as [it|]; [|inversion E; subst; eapply stale_mono; eassumption].
    destruct (isExpiredTL (stale s t) clk (r_exp it)) as [x tl] eqn:EX. inversion E; subst.
    intros t'. cbn [stale]. destruct hf; [|specialize (H t'); lia]. unfold upd.
    destruct (t' =? t); [eapply tl_stale; [exact EX|specialize (H t); lia|lia]|specialize (H t'); lia].
  - inversion E; subst. assumption.
  - destruct (ram s k) as [it|]; [|inversion E; subst; eapply stale_mono; eassumption].
    destruct (isExpiredAt c0 (r_exp it)); [|inversion E; subst; eapply stale_mono; eassumption].
    destruct (isExpiredTL (stale s t) c (r_exp it)) as [x tl] eqn:EX. inversion E; subst.
    intros t'. cbn [stale]. unfold upd.
    destruct (t' =? t); [eapply tl_stale; [exact EX|specialize (H t); lia|lia]|specialize (H t'); lia].
Qed.

Lemma run_stale hf : forall os s b, StaleLe s b -> nondecreasing b (flat_map clocks os) ->
  StaleLe (run hf s os) (lastClock b (flat_map clocks os)).
Proof.
  induction os as [|o os IH]; intros s b H Hn; cbn [run flat_map lastClock]; [exact H|].
  cbn [flat_map] in Hn. apply nondec_app in Hn as [H1 H2].
  destruct (step hf s o) as [r s'] eqn:E. cbn [snd].
  assert (Hl : lastClock b (clocks o ++ flat_map clocks os) =
               lastClock (lastClock b (clocks o)) (flat_map clocks os)).
  { clear. revert b. induction (clocks o) as [|x l IHl]; intros b; cbn; [reflexivity|apply IHl]. }
  rewrite Hl. apply IH; [|assumption]. eapply step_stale; eassumption.
Qed.
