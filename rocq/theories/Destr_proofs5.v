(** Evictions, releases, finds. *)
From Coq Require Import List Arith Bool Lia.
Import ListNotations.
From Verif Require Import Destr_model Destr_spec Destr_proofs Destr_proofs2 Destr_proofs3 Destr_proofs4.
Local Arguments Nat.ltb : simpl never.

Lemma spurious_inv s d : Inv s d -> Inv (setSpurs s (spurs s ++ [RTomb])) d.
Proof.
  intro H. apply spurs_change; auto. intros v P r Hr. apply in_app_iff in Hr. destruct Hr as [Hr|[<-|[]]]; auto.
  destruct (i_lock _ _ H v P) as (_ & _ & _ & _ & F). auto.
Qed.

Lemma holds_chain s : holds s = false -> ~ pinChain s.
Proof. intros Hh (r & E). unfold holds in Hh. rewrite E in Hh. discriminate. Qed.
Lemma filter_app_len {A} (f : A -> bool) a b : length (filter f (a ++ b)) = length (filter f a) + length (filter f b).
Proof. rewrite filter_app, app_length. reflexivity. Qed.
Lemma noTok_filter l : existsb hasTok l = false -> length (filter hasTok l) = 0.
Proof. induction l as [|e l IH]; cbn; auto. destruct (hasTok e); cbn; [discriminate|auto]. Qed.

Lemma evict_inv s d it tok :
  Inv s d -> ram s = Some it -> excl it = false -> holds s = false ->
  (tok = Some true -> clean it = false \/ evicted it = true) -> (tok = Some true -> hasToken s = false) -> (tok = Some true \/ tok = None) ->
  Inv (setEvs (setRam s (Some (mkItem (iid it) (clean it) (evicted it) true))) (evs s ++ [mkEv (iid it) (clean it) (evicted it) tok EUnlink])) d.
Proof.
  intros H Er Ex Hh Hd Ht Htok. pose proof (holds_chain s Hh) as Nc. open_inv H. inv_goal.
  - cbn. unfold holds in Hh. destruct (muts s) as [|m [|m' l]]; [exact Logic.I | | destruct m as [| | | | | | |[|] r|]; exact Logic.I].
    destruct m as [| | | | | | |[|] r|]; cbn in Hh; try discriminate; try exact Logic.I; try (destruct Iheld as (x & X & Y & _); rewrite X, Y, Nat.eqb_refl in Hh; discriminate). exact Iheld.
  - intros x X Y. cbn in X. inversion X; subst. eexists. split; [cbn; apply in_app_iff; right; left; reflexivity|]. split; reflexivity.
  - intro v. specialize (Iown v). unfold hold, flashHold, ramHold in *. cbn in *. change (cur (setEvs _ _)) with (cur s). change (pins (setEvs _ _)) with (pins s).
    rewrite flat_map_app. rewrite Er, Ex in *. cbn. unfold evHold at 2. cbn. destruct (clean it && negb (evicted it)); cbn in *; cn; lia.
  - intros x X Y. cbn in X. inversion X; subst. discriminate.
  - intros x X Y. cbn in X. inversion X; subst. discriminate.
  - intros _ x X Y. cbn in X. inversion X; subst. discriminate.
  - intros e E1 E2. cbn in E1. apply in_app_iff in E1. destruct E1 as [E1|[<-|[]]].
    + destruct (Itok e E1 E2) as (A & B & C & D). split; [exact A|]. split; [exact B|]. split; [|exact D].
      intros x X Y. cbn in X. inversion X; subst. discriminate.
    + unfold validTok in E2. cbn in E2. destruct tok as [[|]|]; try discriminate.
      split; [|split; [|split]].
      * destruct (Isettled it Er Ex (Hd eq_refl)); [contradiction|assumption].
      * change (lastIns (queue s) = false). destruct (lastIns (queue s)); auto. exfalso. exact (Nc (Ilast eq_refl it Er Ex)).
      * intros x X Y. cbn in X. inversion X; subst. discriminate.
      * exact Logic.I.
  - cbn. rewrite filter_app_len. cbn. destruct Htok as [-> | ->]; cbn; [|lia]. rewrite (noTok_filter (evs s)); [lia|]. exact (Ht eq_refl).
  - intros r X. exfalso. apply Nc. exists r. exact X.
  - intros e E1 E2. cbn in E1. apply in_app_iff in E1. destruct E1 as [E1|[<-|[]]]; auto. unfold validTok in E2. cbn in E2. destruct tok as [[|]|]; try discriminate.
    unfold evHold. cbn. destruct (Hd eq_refl) as [-> | ->]; cbn; rewrite ?andb_false_r; reflexivity.
Qed.

(** changing an eviction that is past [EUnlink] *)
Lemma hold_perm s l v : (forall v, cnt v (flat_map evHold l) = cnt v (flat_map evHold (evs s))) -> cnt v (hold (setEvs s l)) = cnt v (hold s).
Proof.
  intro E. unfold hold. cbn. change (ramHold (setEvs s l)) with (ramHold s). change (flashHold (setEvs s l)) with (flashHold s). rewrite !cnt_app, E. reflexivity.
Qed.
Lemma flat_mid v l1 e l2 : cnt v (flat_map evHold (l1 ++ e :: l2)) = cnt v (flat_map evHold l1) + cnt v (evHold e) + cnt v (flat_map evHold l2).
Proof. rewrite flat_map_app. cbn. cn. lia. Qed.
Lemma filt_mid l1 e l2 : length (filter hasTok (l1 ++ e :: l2)) = length (filter hasTok l1) + (if hasTok e then 1 else 0) + length (filter hasTok l2).
Proof. rewrite filter_app_len. cbn. destruct (hasTok e); cbn; lia. Qed.
Lemma in_mid {A} (x e : A) l1 l2 : In x (l1 ++ e :: l2) <-> x = e \/ In x (l1 ++ l2).
Proof. rewrite !in_app_iff. cbn. intuition. Qed.

Lemma ev_change s d l1 e l2 e' :
  Inv s d -> evs s = l1 ++ e :: l2 -> epcs e <> EUnlink -> evHold e' = evHold e -> (hasTok e' = true -> hasTok e = true) -> eid e' = eid e ->
  (validTok e' = true -> validTok e = true /\
     match epcs e' with EUnlink | EPut => True | ECtx | EExec => cur s = [] /\ hasIns (queue s) = false | _ => False end) ->
  Inv (setEvs s (l1 ++ e' :: l2)) d.
Proof.
  intros H E Ne Eh Et Ei Ev. open_inv H. inv_goal.
  - intros it X Y. destruct (Iexcl it X Y) as (x & A & B & C). exists x. split; [|split; [exact B|exact C]]. rewrite E in A. apply in_mid in A. cbn. apply in_mid. destruct A as [->|A]; [contradiction|auto].
  - intro v. rewrite hold_perm; [apply Iown|]. intro w. rewrite E, !flat_mid, Eh. reflexivity.
  - intros x X Y. cbn in X. apply in_mid in X. destruct X as [->|X].
    + destruct (Ev Y) as [Z W]. destruct (Itok e) as (A & B & C & D); [rewrite E; apply in_mid; auto | exact Z |]. split; [exact A|]. split; [exact B|]. split; [exact C|exact W].
    + destruct (Itok x) as (A & B & C & D); [rewrite E; apply in_mid; auto | exact Y |]. split; [exact A|]. split; [exact B|]. split; [exact C|exact D].
  - cbn. rewrite E in Iuniq. rewrite filt_mid in *. destruct (hasTok e'), (hasTok e); try lia.
  - intros r X Y. specialize (Ilate r X Y). rewrite E, existsb_app in Ilate. cbn in *. rewrite existsb_app. cbn. apply orb_false_iff in Ilate. destruct Ilate as [A B]. apply orb_false_iff in B. destruct B as [B C].
    rewrite A, C. destruct (validTok e'); auto. destruct (Ev eq_refl). congruence.
  - intros x X Y. cbn in X. apply in_mid in X. destruct X as [->|X].
    + rewrite Eh, Ei. apply Itokh; [rewrite E; apply in_mid; auto | exact (proj1 (Ev Y))].
    + apply Itokh; [rewrite E; apply in_mid; auto | exact Y].
Qed.

Definition dids (e : list event) : list nat := flat_map (fun x => match x with Destructed v => [v] | _ => [] end) e.

Lemma ev_inv s d i l1 e l2 b s1 ev :
  Inv s d -> pick i (evs s) = Some (l1, e, l2) -> estep s l1 e l2 b = (s1, ev) -> Inv s1 (d ++ dids ev).
Proof.
  intros H P St. apply pick_app in P. unfold estep in St. destruct (epcs e) eqn:Pc.
  - (* unlink *)
    inversion St; subst; clear St. cbn. rewrite app_nil_r.
    set (e' := mkEv (eid e) (eclean e) (eevicted e) (etok e) _).
    set (r := match ram s with Some it => if Nat.eqb (iid it) (eid e) && excl it then None else ram s | None => None end).
    replace (match ram s with Some it => if Nat.eqb (iid it) (eid e) && excl it then setRam s None else s | None => s end) with (setRam s r)
      by (unfold r; destruct s as [ra]; cbn; destruct ra as [it|]; [destruct (Nat.eqb (iid it) (eid e) && excl it)|]; reflexivity).
    assert (Rr : forall x, r = Some x -> ram s = Some x). { unfold r. destruct (ram s) as [it|]; auto. destruct (_ && _); [discriminate|auto]. }
    assert (Rn : forall x, ram s = Some x -> excl x = false -> r = Some x). { unfold r. intros x -> ->. rewrite andb_false_r. reflexivity. }
    assert (Rh : ramHold (setEvs (setRam s r) (l1 ++ e' :: l2)) = ramHold s).
    { unfold ramHold, r. cbn. destruct (ram s) as [it|]; auto. destruct (Nat.eqb (iid it) (eid e)); cbn; auto. destruct (excl it) eqn:X; cbn; rewrite ?X; auto. }
    assert (Vt : validTok e' = validTok e) by reflexivity. assert (Ht : hasTok e' = hasTok e) by reflexivity.
    open_inv H. inv_goal.
    + cbn. destruct (muts s) as [|m [|m' l]]; auto. destruct m as [| | | | | | |k ?|]; auto; try (destruct Iheld as (x & X & Y & Z); exists x; split; [apply Rn; assumption|]; split; assumption).
      destruct k; auto. destruct Iheld as (x & X & Y & Z). exists x. split; [apply Rn; assumption|]. split; assumption.
    + intros x X Y. cbn in X. destruct (Iexcl x (Rr x X) Y) as (y & A & B & C). exists y. split; [|split; [exact B|exact C]]. rewrite P in A. apply in_mid in A. cbn. apply in_mid. destruct A as [->|A]; [|auto].
      exfalso. unfold r in X. rewrite (Rr x X) in X. rewrite C, Nat.eqb_refl, Y in X. discriminate.
    + intro v. specialize (Iown v). unfold hold in *. rewrite Rh. cbn [evs setEvs loose setRam nextid] in *. change (flashHold (setEvs _ _)) with (flashHold s). rewrite P in Iown. rewrite !cnt_app in *. rewrite !flat_mid in *. exact Iown.
    + intros x X. exact (Iclean x (Rr x X)).
    + intros x X. exact (Isettled x (Rr x X)).
    + intros L x X. exact (Ilast L x (Rr x X)).
    + intros x X Y. cbn in X. apply in_mid in X. destruct X as [->|X].
      * destruct (Itok e) as (A & B & C & D); [rewrite P; apply in_mid; auto | exact Y |]. split; [exact A|]. split; [exact B|]. split; [intros z Z; exact (C z (Rr z Z))|]. unfold validTok in Vt. unfold validTok in Y. cbn in Y |- *. destruct (etok e) as [[|]|]; try discriminate. exact Logic.I.
      * destruct (Itok x) as (A & B & C & D); [rewrite P; apply in_mid; auto | exact Y |]. split; [exact A|]. split; [exact B|]. split; [intros z Z; exact (C z (Rr z Z))|exact D].
    + cbn. rewrite P in Iuniq. rewrite filt_mid in *. exact Iuniq.
    + intros r0 X Y. specialize (Ilate r0 X Y). rewrite P, existsb_app in Ilate. cbn in *. rewrite existsb_app. exact Ilate.
    + intros x X Y. cbn in X. apply in_mid in X. destruct X as [->|X]; [exact (Itokh e ltac:(rewrite P; apply in_mid; auto) Y) | apply Itokh; [rewrite P; apply in_mid; auto | exact Y]].
  - (* put *)
    destruct (b && enabled s && negb (tombed s)) eqn:G; inversion St; subst; clear St; cbn [dids flat_map]; rewrite app_nil_r; apply (ev_change s d l1 e l2); auto; try congruence; try discriminate.
    intro V. assert (V' : validTok e = true) by exact V. split; [exact V'|].
    apply andb_prop in G. destruct G as [_ G]. apply negb_true_iff in G. apply tombed_false in G. destruct G as (_ & _ & Nr).
    destruct (i_tok _ _ H e) as (A & B & _); [rewrite P; apply in_mid; auto | exact V' |]. cbn.
    pose proof (noRem_lastIns _ Nr B) as Ni.
    assert (Nr' : hasRem (rest s) = false). { destruct (hasRem (rest s)) eqn:X; auto. unfold rest in X. destruct (phase s); try congruence; apply hasRem_tl in X; congruence. }
    destruct (sim_norem _ _ _ A Nr') as (_ & Of). destruct (Of eq_refl) as [Oz _].
    split; [|exact Ni]. unfold cur. unfold occ in Oz. destruct (onFlash s); [|discriminate]. rewrite app_nil_r. unfold cbs.
    pose proof (i_ph _ _ H) as Ph. destruct (phase s); auto; [destruct Ph as (w & q & X) | destruct Ph as (w & q & X) | destruct Ph as (q & X) | destruct Ph as (q & X)]; rewrite X in *; discriminate.
  - (* context *)
    inversion St; subst; clear St; cbn [dids flat_map]; rewrite app_nil_r; apply (ev_change s d l1 e l2); auto; try congruence.
    intro V. assert (V' : validTok e = true) by exact V. split; [exact V'|]. destruct (i_tok _ _ H e) as (_ & _ & _ & D); [rewrite P; apply in_mid; auto | exact V' |]. rewrite Pc in D. exact D.
  - (* execute *)
    destruct (etok e) as [[|]|] eqn:T.
    + destruct b; inversion St; subst; clear St; cbn [dids flat_map]; rewrite app_nil_r; [|apply (ev_change s d l1 e l2); auto; try congruence; discriminate].
      assert (V : validTok e = true) by (unfold validTok; rewrite T; reflexivity).
      destruct (i_tok _ _ H e) as (A & B & C & D); [rewrite P; apply in_mid; auto | exact V |]. rewrite Pc in D. destruct D as [Cu Ni].
      pose proof (noIns_pins s Ni) as Pn.
      assert (Mk : marked s = false). { destruct (marked s) eqn:M; auto. destruct (i_mark _ _ H M) as ((v & X) & _). congruence. }
      assert (Oth : forall x, In x (l1 ++ l2) -> hasTok x = false).
      { intros x X. pose proof (i_uniq _ _ H) as U. rewrite P, filt_mid in U. assert (Te : hasTok e = true) by (unfold hasTok; rewrite T; reflexivity). rewrite Te in U.
        destruct (hasTok x) eqn:Y; auto. exfalso. assert (1 <= length (filter hasTok (l1 ++ l2))). { assert (Z : In x (filter hasTok (l1 ++ l2))) by (apply filter_In; auto). destruct (filter hasTok (l1 ++ l2)); [contradiction|cbn; lia]. }
        rewrite filter_app_len in *. lia. }
      set (e' := mkEv (eid e) true false None ERel).
      assert (Nv : existsb validTok (l1 ++ e' :: l2) = false).
      { apply existsb_false. intros x X. apply in_mid in X. destruct X as [->|X]; auto. specialize (Oth x X). unfold hasTok in Oth. unfold validTok. destruct (etok x); [discriminate|auto]. }
      set (s0 := setEvs s (l1 ++ e' :: l2)).
      assert (R : rest (setQueue s0 (queue s ++ [JIns (eid e)])) = rest s ++ [JIns (eid e)]) by exact (rest_snoc s d (JIns (eid e)) H).
      assert (S2 : sim (occ s) (rest s ++ [JIns (eid e)]) = Some true) by (rewrite sim_app, A; reflexivity).
      assert (Rm : forall it, ram s = Some it -> excl it = false -> clean it = false /\ pinChain s).
      { intros it X Y. destruct (C it X Y) as (r & Er & _). pose proof (i_held _ _ H) as Ih. rewrite Er in Ih. destruct Ih as (y & Y1 & Y2 & Y3). split; [congruence | exists r; exact Er]. }
      assert (Th : evHold e = [eid e]) by (apply (i_tokh _ _ H); [rewrite P; apply in_mid; auto | exact V]).
      open_inv H. constructor; try assumption; try (cbn; assumption).
      * exact (ph_snoc s (JIns (eid e)) Iph).
      * rewrite R. exists true. exact S2.
      * intros it X Y. destruct (Iexcl it X Y) as (x & X1 & X2 & X3). exists x. split; [|split; [exact X2|exact X3]]. rewrite P in X1. apply in_mid in X1. cbn. apply in_mid. destruct X1 as [->|X1]; [congruence|auto].
      * intro v. specialize (Iown v). unfold hold, flashHold in *. cbn [evs setEvs setQueue loose setRam nextid marked s0] in *. change (ramHold (setQueue _ _)) with (ramHold s). change (cur (setQueue _ _)) with (cur s).
        unfold pins in *. rewrite R. rewrite insIds_app. rewrite Mk, Pn, Cu, P in *. rewrite !cnt_app in *. rewrite !flat_mid in *. change (insIds [JIns (eid e)]) with [eid e]. change (evHold e') with (@nil nat).
        rewrite Th in Iown. cn. lia.
      * intro M. cbn in M. congruence.
      * intros v X. destruct (Ilock v X) as (L1 & L2 & L3 & L4 & L5). split; [exact L1|]. split; [cbn; rewrite hasRem_app, L2; reflexivity|]. split; [exact L3|]. split; [exact L4|exact L5].
      * cbn. rewrite looks_app. change (looks [JIns (eid e)]) with 0. rewrite Nat.add_0_r. assumption.
      * intros it X Y Z. exfalso. destruct (Rm it X Y). cbn in *. congruence.
      * intros it X Y Z. left. exact (proj2 (Rm it X Y)).
      * intros _ it X Y. exact (proj2 (Rm it X Y)).
      * intros x X Y. exfalso. rewrite (proj1 (existsb_false _ _) Nv x X) in Y. discriminate.
      * cbn. rewrite filt_mid. cbn. pose proof (filter_app_len hasTok l1 l2). rewrite P, filt_mid in Iuniq. lia.
      * cbn. destruct (muts s) as [|m [|m' l]] eqn:Em; [exact Logic.I | | destruct m as [| | | | | | |[|] []|]; exact Logic.I]. destruct m as [| | | | | | |[|] []|]; try exact Logic.I. exfalso. assert (X : existsb validTok (evs s) = false) by (apply (Ilate RCould); [reflexivity | unfold early; intuition congruence]).
        assert (In e (evs s)) by (rewrite P; apply in_mid; auto). rewrite (proj1 (existsb_false _ _) X e H) in V. discriminate.
      * intros r _ _. exact Nv.
      * intros x X Y. exfalso. rewrite (proj1 (existsb_false _ _) Nv x X) in Y. discriminate.
    + inversion St; subst; clear St; cbn [dids flat_map]; rewrite app_nil_r; apply (ev_change s d l1 e l2); auto; try congruence; try discriminate. unfold hasTok. rewrite T. auto.
    + inversion St; subst; clear St; cbn [dids flat_map]; rewrite app_nil_r; apply (ev_change s d l1 e l2); auto; try congruence; discriminate.
  - inversion St; subst; clear St; cbn [dids flat_map]; rewrite app_nil_r; apply (ev_change s d l1 e l2); auto; try congruence; discriminate.
  - (* release *)
    inversion St; subst; clear St. open_inv H. inv_goal.
    + intros it X Y. destruct (Iexcl it X Y) as (x & A & B & C). exists x. split; [|split; [exact B|exact C]]. rewrite P in A. apply in_mid in A. cbn. destruct A as [->|A]; [congruence|auto].
    + intro v. specialize (Iown v). unfold hold in *. cbn [evs setEvs loose nextid] in *. change (ramHold (setEvs _ _)) with (ramHold s). change (flashHold (setEvs _ _)) with (flashHold s).
      rewrite P in Iown. rewrite !cnt_app in *. rewrite flat_mid in Iown. rewrite flat_map_app, cnt_app. unfold evHold at 2 in Iown. destruct (eclean e && negb (eevicted e)); cbn [dids flat_map app] in *; rewrite ?cnt_nil in *; lia.
    + intros x X Y. destruct (Itok x) as (A & B & C & D); [rewrite P; apply in_mid; auto | exact Y |]. split; [exact A|]. split; [exact B|]. split; [exact C|exact D].
    + cbn. rewrite P, filt_mid in Iuniq. rewrite filter_app_len. lia.
    + intros r X Y. specialize (Ilate r X Y). rewrite P, existsb_app in Ilate. cbn in *. rewrite existsb_app. apply orb_false_iff in Ilate. destruct Ilate as [A B]. apply orb_false_iff in B. destruct B as [B C]. rewrite A, C. reflexivity.
    + intros x X Y. apply Itokh; [rewrite P; apply in_mid; auto | exact Y].
Qed.
