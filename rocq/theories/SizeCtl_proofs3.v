(** What the controller decides and does. *)
From Coq Require Import List ZArith Bool Lia.
Import ListNotations.
From Verif Require Import SizeCtl_model SizeCtl_spec SizeCtl_proofs1 SizeCtl_proofs2.
Open Scope Z_scope.

Lemma run_app c l1 l2 s : run c s (l1 ++ l2) = match run c s l1 with Some s' => run c s' l2 | None => None end.
Proof. revert s; induction l1 as [|a l1 IH]; intro s; cbn [run app]; [reflexivity|]. destruct (step c s a); [apply IH|reflexivity]. Qed.

Lemma numEntries_le c s : wfConf c -> inv c s -> 0 <= numEntries c s <= items c s.
Proof.
  intros W I. unfold numEntries, items. rewrite sumTo_add.
  assert (0 <= sumTo (held s) (Z.to_nat (shards c))) by (apply sumTo_nonneg; intros p Hp; pose proof (iNn c s I p); lia).
  assert (0 <= sumTo (ent s) (Z.to_nat (shards c))) by (apply sumTo_nonneg; intros p Hp; pose proof (iNn c s I p); lia).
  lia.
Qed.

Lemma target_le c sl num avg fm rss : target c sl num avg fm rss <= sl / avg.
Proof. unfold target. destruct (mode c); try lia; repeat match goal with |- context[if ?b then _ else _] => destruct b end; lia. Qed.
Lemma mul_div_le a b : 0 < b -> a / b * b <= a.
Proof. intro H. rewrite Z.mul_comm. apply Z.mul_div_le. exact H. Qed.

(* the limit aimed at fits *)
Lemma aim c lm sl num total fm rss : mode c <> FreeMemoryOnly -> 0 <= num -> 0 <= total ->
  match work c lm sl num total fm rss with
  | PShrink n => 0 < n /\ (lm - n) * (total / num) <= sl /\ lm - n <= entLimit c /\ lm - n <= num
  | PExpand n => 0 < n /\ (lm + n) * (total / num) <= sl /\ lm + n <= entLimit c /\ num = lm
  | PIdle => True
  | PEnsure => False
  end.
Proof.
  intros M Hn Ht. unfold work. destruct (mode c) eqn:EM; try (contradiction M; reflexivity); clear M; rewrite <- ?EM.
  all: destruct (Z.eqb_spec num 0) as [Z0|Z0]; [exact Logic.I|].
  all: destruct (warming c lm sl num total); [exact Logic.I|].
  all: destruct (Z.eqb_spec (total / num) 0) as [Z1|Z1]; [exact Logic.I|].
  all: pose proof (target_le c sl num (total / num) fm rss) as T; rewrite ?EM in T |- *.
  all: assert (AP : 0 < total / num) by (pose proof (Z.div_pos total num ltac:(lia) ltac:(lia)); lia).
  all: pose proof (mul_div_le sl _ AP) as MD.
  all: set (tg := target c sl num (total / num) fm rss) in *; clearbody tg.
  all: cbv zeta.
  all: destruct (Z.ltb_spec (Z.min tg (entLimit c)) lm); destruct (Z.leb_spec (Z.min tg (entLimit c)) num); cbn [andb];
       destruct (Z.ltb_spec lm (Z.min tg (entLimit c))); destruct (Z.eqb_spec num lm); cbn [andb]; try exact Logic.I; try lia.
  all: repeat split; try lia; try nia.
Qed.

Lemma target_nonneg c sl num avg fm rss : 0 <= sl -> 0 < avg -> 0 <= target c sl num avg fm rss.
Proof.
  intros Hs Ha. assert (0 <= sl / avg) by (apply Z.div_pos; lia).
  assert (P : forall x, 0 <= wr x) by (intro x; apply Z.mod_pos_bound; lia).
  unfold target. destruct (mode c); try lia; repeat match goal with |- context[if ?b then _ else _] => destruct b end; try lia;
  match goal with |- context[Z.min _ (wr ?x)] => specialize (P x) end; lia.
Qed.

(* total over the limit, all objects of one size: it shrinks *)
Lemma over_shrinks c lm sl num sz fm rss : mode c <> FreeMemoryOnly -> 0 < num <= lm -> lm <= entLimit c -> 0 < sz -> 0 <= sl < num * sz ->
  exists n, work c lm sl num (num * sz) fm rss = PShrink n /\ lm - sl / sz <= n <= lm.
Proof.
  intros M Hn Hl Hz Hs.
  assert (Wm : warming c lm sl num (num * sz) = false).
  { unfold warming. replace (num * sz <? wr (50 * sl) / 100) with false; [reflexivity|]. symmetry. apply Z.ltb_ge.
    assert (wr (50 * sl) <= 50 * sl) by (apply Z.mod_le; lia).
    assert (wr (50 * sl) / 100 <= sl) by (apply Z.div_le_upper_bound; lia). lia. }
  assert (Q : sl / sz < num) by (apply Z.div_lt_upper_bound; lia).
  pose proof (target_le c sl num sz fm rss) as T1. pose proof (target_nonneg c sl num sz fm rss ltac:(lia) Hz) as T2.
  exists (lm - Z.min (target c sl num sz fm rss) (entLimit c)). split; [|lia].
  unfold work. rewrite Wm, (Z.mul_comm num sz), Z.div_mul by lia.
  destruct (Z.eqb_spec num 0); [lia|]. destruct (Z.eqb_spec sz 0); [lia|]. cbv zeta.
  set (tg := target c sl num sz fm rss) in *.
  destruct (Z.ltb_spec (Z.min tg (entLimit c)) lm); [|lia]. destruct (Z.leb_spec (Z.min tg (entLimit c)) num); [|lia].
  destruct (mode c); try reflexivity. contradiction M; reflexivity.
Qed.

(* free memory below the lower limit by at least one and at most all objects: it shrinks accordingly *)
Lemma low_memory c lm sl num total fm rss : mode c = FreeMemory -> 0 < num <= lm -> lm <= entLimit c ->
  0 < total / num -> warming c lm sl num total = false ->
  0 <= fm -> lower c < 2 ^ 64 -> num < 2 ^ 64 -> 0 <= sl ->
  total / num <= lower c - fm -> (lower c - fm) / (total / num) <= num ->
  exists n, work c lm sl num total fm rss = PShrink n /\ lm - n <= num - (lower c - fm) / (total / num) /\ n <= lm.
Proof.
  intros M Hn Hl Ha Wm Hf Hlo Hnu Hsl H1 H2. unfold work. rewrite M, Wm.
  destruct (Z.eqb_spec num 0); [lia|]. destruct (Z.eqb_spec (total / num) 0); [lia|]. cbv zeta.
  set (a := total / num) in *.
  assert (D1 : 1 <= (lower c - fm) / a) by (apply Z.div_le_lower_bound; lia).
  assert (S0 : 0 <= sl / a) by (apply Z.div_pos; lia).
  assert (T : target c sl num a fm rss = Z.min (sl / a) (num - (lower c - fm) / a)).
  { unfold target. rewrite M. destruct (Z.ltb_spec fm (lower c)); [|lia].
    rewrite (wr_id (lower c - fm)) by lia. rewrite wr_id by lia. reflexivity. }
  rewrite T. set (d := (lower c - fm) / a) in *. clearbody d.
  exists (lm - Z.min (Z.min (sl / a) (num - d)) (entLimit c)).
  destruct (Z.ltb_spec (Z.min (Z.min (sl / a) (num - d)) (entLimit c)) lm); [|lia].
  destruct (Z.leb_spec (Z.min (Z.min (sl / a) (num - d)) (entLimit c)) num); [|lia].
  split; [reflexivity|]. lia.
Qed.

(* a placeholder can be had if nothing is held outside the index *)
Lemma alloc_ok c s : wfConf c -> inv c s -> (forall p, 0 <= p < shards c -> held s p = 0) -> 0 < lim s ->
  alloc c s (nextShard c s) true <> None.
Proof.
  intros (W1 & W2 & W3 & W4) [IP IS IM IN IC] Hh Hl.
  set (p := nextShard c s). assert (RP : 0 <= p < shards c) by (unfold p, nextShard; apply Z.mod_pos_bound; lia).
  assert (C : cnt p (ph s) < slots c).
  { rewrite IP, cnt_initPh by lia. unfold p, nextShard. rewrite Z.ltb_irrefl.
    set (n := Z.of_nat (length (ph s))) in *. assert (n / shards c < slots c) by (apply Z.div_lt_upper_bound; lia). lia. }
  unfold alloc. destruct (Z.ltb_spec 0 (free c s p)) as [F|F]; [discriminate|]. cbn [andb].
  destruct (Z.ltb_spec 0 (ent s p)) as [E|E]; [discriminate|]. exfalso.
  specialize (IN p RP). specialize (Hh p RP). unfold free in *. lia.
Qed.

Lemma shrink_runs c fm ens : wfConf c -> forall k s, inv c s -> ctl s = CShrink (Z.of_nat k) ens ->
  (forall p, 0 <= p < shards c -> held s p = 0) -> Z.of_nat k <= lim s ->
  exists s', run c s (repeat (CStep true fm) k) = Some s' /\ inv c s' /\ lim s' = lim s - Z.of_nat k /\ ctl s' = CShrink 0 ens /\
    (forall p, 0 <= p < shards c -> held s' p = 0) /\ sizeLim s' = sizeLim s /\ answers s' = answers s.
Proof.
  intro W. induction k as [|k IH]; intros s I C Hh Hl.
  - exists s. cbn [repeat run]. split; [reflexivity|]. split; [exact I|]. split; [lia|]. repeat split; assumption.
  - pose proof (alloc_ok c s W I Hh ltac:(lia)) as A.
    destruct (alloc c s (nextShard c s) true) as [e|] eqn:EA; [|contradiction].
    pose proof W as (W1 & W2 & W3 & W4). pose proof (iSum c s I) as IS. pose proof (iLim c s I).
    set (s1 := mkSt e (held s) (ph s ++ [nextShard c s]) (wr (lim s - 1)) (sizeLim s) (CShrink (Z.of_nat (S k) - 1) ens) (answers s)).
    assert (ST : step c s (CStep true fm) = Some s1).
    { unfold step. rewrite C. destruct (Z.leb_spec (Z.of_nat (S k)) 0); [lia|]. rewrite EA. reflexivity. }
    pose proof (inv_step c s _ s1 W I ST) as I1.
    assert (WL : wr (lim s - 1) = lim s - 1) by (apply wr_id; lia).
    destruct (IH s1 I1) as (s' & R & I' & L' & C' & H' & S' & A').
    + cbn [ctl s1]. f_equal. lia.
    + exact Hh.
    + cbn [lim s1]. lia.
    + exists s'. cbn [repeat run]. rewrite ST. split; [exact R|]. split; [exact I'|]. cbn [lim s1 sizeLim answers] in *.
      split; [lia|]. repeat split; assumption.
Qed.

Lemma expand_runs c fm : wfConf c -> forall k s, inv c s -> ctl s = CExpand (Z.of_nat k) ->
  exists s', run c s (repeat (CStep true fm) k) = Some s' /\ inv c s' /\ lim s' = lim s + Z.of_nat k /\ ctl s' = CExpand 0.
Proof.
  intro W. induction k as [|k IH]; intros s I C.
  - exists s. cbn [repeat run]. split; [reflexivity|]. split; [exact I|]. split; [lia|exact C].
  - pose proof (iCtl c s I) as IC. rewrite C in IC.
    pose proof W as (W1 & W2 & W3 & W4). pose proof (iSum c s I) as IS. pose proof (iLim c s I). pose proof (items_lim c s W I).
    destruct (ph s) as [|x l] eqn:P; [cbn [length] in IC; lia|]. rewrite <- P in *.
    set (s1 := mkSt (ent s) (held s) (removelast (ph s)) (wr (lim s + 1)) (sizeLim s) (CExpand (Z.of_nat (S k) - 1)) (answers s)).
    assert (ST : step c s (CStep true fm) = Some s1).
    { unfold step. rewrite C. destruct (Z.leb_spec (Z.of_nat (S k)) 0); [lia|]. unfold s1. rewrite P. reflexivity. }
    pose proof (inv_step c s _ s1 W I ST) as I1.
    assert (WL : wr (lim s + 1) = lim s + 1) by (apply wr_id; lia).
    destruct (IH s1 I1) as (s' & R & I' & L' & C').
    + cbn [ctl s1]. f_equal. lia.
    + exists s'. cbn [repeat run]. rewrite ST. split; [exact R|]. split; [exact I'|]. cbn [lim s1] in *. split; [lia|exact C'].
Qed.

(* the controller's step is always defined *)
Lemma ctl_defined c s ev fm : inv c s -> ctl s <> CIdle -> step c s (CStep ev fm) <> None.
Proof.
  intros I N. pose proof (iCtl c s I) as IC. unfold step. destruct (ctl s) as [|n ens|n]; [contradiction| |].
  - destruct (n <=? 0); [discriminate|]. destruct (alloc c s (nextShard c s) ev); discriminate.
  - destruct (Z.leb_spec n 0); [discriminate|]. destruct (ph s); [cbn [length] in IC; lia|discriminate].
Qed.

(* One whole run of the controller with nothing else going on. *)
Lemma shrink_whole c s total fm rss n : wfConf c -> inv c s -> ctl s = CIdle -> (forall p, 0 <= p < shards c -> held s p = 0) ->
  work c (lim s) (sizeLim s) (numEntries c s) total fm rss = PShrink n -> 0 <= n <= lim s ->
  exists s', run c s (CStart total fm rss :: repeat (CStep true fm) (Z.to_nat n) ++ [CStep true fm]) = Some s' /\ inv c s' /\
    lim s' = lim s - n /\ ctl s' = CIdle /\ (forall p, 0 <= p < shards c -> held s' p = 0) /\ sizeLim s' = sizeLim s /\ answers s' = answers s.
Proof.
  intros W I C Hh Hw Hn.
  set (s1 := mkSt (ent s) (held s) (ph s) (lim s) (sizeLim s) (CShrink n false) (answers s)).
  assert (ST : step c s (CStart total fm rss) = Some s1) by (unfold step; rewrite C, Hw; reflexivity).
  pose proof (inv_step c s _ s1 W I ST) as I1.
  destruct (shrink_runs c fm false W (Z.to_nat n) s1 I1) as (s2 & R & I2 & L2 & C2 & H2 & S2 & A2).
  - cbn [ctl s1]. f_equal. lia.
  - exact Hh.
  - cbn [lim s1]. lia.
  - set (s3 := mkSt (ent s2) (held s2) (ph s2) (lim s2) (sizeLim s2) CIdle (answers s2)).
    assert (ST3 : step c s2 (CStep true fm) = Some s3) by (unfold step; rewrite C2; reflexivity).
    exists s3. split. { cbn [run]. rewrite ST, run_app, R. cbn [run]. rewrite ST3. reflexivity. }
    split; [exact (inv_step c s2 _ s3 W I2 ST3)|]. cbn [lim s3 ctl held sizeLim answers s1] in *. split; [lia|]. repeat split; assumption.
Qed.
Lemma expand_whole c s total fm rss n : wfConf c -> inv c s -> ctl s = CIdle ->
  work c (lim s) (sizeLim s) (numEntries c s) total fm rss = PExpand n -> 0 < n -> lim s + n <= entLimit c ->
  exists s', run c s (CStart total fm rss :: repeat (CStep true fm) (Z.to_nat n) ++ [CStep true fm]) = Some s' /\ inv c s' /\
    lim s' = lim s + n /\ ctl s' = CIdle.
Proof.
  intros W I C Hw Hn Hl. pose proof (iSum c s I). pose proof W as (W1 & W2 & W3 & W4).
  set (s1 := mkSt (ent s) (held s) (ph s) (lim s) (sizeLim s) (CExpand n) (answers s)).
  assert (ST : step c s (CStart total fm rss) = Some s1).
  { unfold step; rewrite C, Hw. unfold s1. do 2 f_equal. destruct (Z.ltb_spec (lim s) (entLimit c)); [f_equal; lia|lia]. }
  pose proof (inv_step c s _ s1 W I ST) as I1.
  destruct (expand_runs c fm W (Z.to_nat n) s1 I1) as (s2 & R & I2 & L2 & C2).
  - cbn [ctl s1]. f_equal. lia.
  - set (s3 := mkSt (ent s2) (held s2) (ph s2) (lim s2) (sizeLim s2) CIdle (answers s2)).
    assert (ST3 : step c s2 (CStep true fm) = Some s3) by (unfold step; rewrite C2; reflexivity).
    exists s3. split. { cbn [run]. rewrite ST, run_app, R. cbn [run]. rewrite ST3. reflexivity. }
    split; [exact (inv_step c s2 _ s3 W I2 ST3)|]. cbn [lim s3 ctl s1] in *. split; [lia|reflexivity].
Qed.

(** A cache whose limit has become 0 stays so. *)
Lemma dead_zero c s : wfConf c -> inv c s -> lim s = 0 -> (forall p, 0 <= p < shards c -> ent s p = 0 /\ held s p = 0 /\ free c s p = 0).
Proof.
  intros W I L p Hp. pose proof (items_lim c s W I) as IL. pose proof (items_le c s W (iPh c s I)) as E. pose proof (iSum c s I).
  pose proof W as (W1 & _).
  assert (Z0 : forall q, 0 <= q < Z.of_nat (Z.to_nat (shards c)) -> (fun p => ent s p + held s p) q = 0).
  { apply sumTo_zero; [intros q Hq; pose proof (iNn c s I q); lia|]. unfold items in *. lia. }
  assert (Z1 : forall q, 0 <= q < Z.of_nat (Z.to_nat (shards c)) -> free c s q = 0).
  { apply sumTo_zero; [intros q Hq; pose proof (iNn c s I q); lia|]. lia. }
  specialize (Z0 p ltac:(lia)). specialize (Z1 p ltac:(lia)). pose proof (iNn c s I p Hp). cbv beta in Z0. lia.
Qed.

Lemma dead_step c s a s' : wfConf c -> mode c <> FreeMemoryOnly -> inv c s -> lim s = 0 -> ctl s = CIdle -> step c s a = Some s' ->
  lim s' = 0 /\ ctl s' = CIdle /\ exists x, answers s' = answers s ++ x /\ forall p, ~ In (p, true) x.
Proof.
  intros W M I L C H. pose proof (dead_zero c s W I L) as Z0. pose proof W as (W1 & _).
  assert (NIL : exists x : list (Z * bool), answers s = answers s ++ x /\ forall p, ~ In (p, true) x) by (exists []; rewrite app_nil_r; split; [reflexivity|intros p []]).
  unfold step in H. destruct a as [p ev|p|p|p|l|tot fm rss|ev fm].
  - unfold inRange in H. destruct (Z.leb_spec 0 p); [|discriminate]. destruct (Z.ltb_spec p (shards c)); [|discriminate]. cbn [andb] in H.
    assert (A : alloc c s p ev = None). { unfold alloc. destruct (Z0 p ltac:(lia)) as (E & _ & F). rewrite E, F. cbn. rewrite andb_false_r. reflexivity. }
    rewrite A in H. apply some_inj in H; subst s'. cbn [lim ctl answers]. repeat split; try assumption.
    exists [(p, false)]. split; [reflexivity|]. intros q [X|[]]. discriminate X.
  - unfold inRange in H. destruct (Z.leb_spec 0 p); [|discriminate]. destruct (Z.ltb_spec p (shards c)); [|discriminate]. cbn [andb] in H.
    destruct (Z.ltb_spec 0 (held s p)); [|discriminate]. destruct (Z0 p ltac:(lia)). lia.
  - unfold inRange in H. destruct (Z.leb_spec 0 p); [|discriminate]. destruct (Z.ltb_spec p (shards c)); [|discriminate]. cbn [andb] in H.
    destruct (Z.ltb_spec 0 (ent s p)); [|discriminate]. destruct (Z0 p ltac:(lia)). lia.
  - unfold inRange in H. destruct (Z.leb_spec 0 p); [|discriminate]. destruct (Z.ltb_spec p (shards c)); [|discriminate]. cbn [andb] in H.
    destruct (Z.ltb_spec 0 (held s p)); [|discriminate]. destruct (Z0 p ltac:(lia)). lia.
  - destruct (0 <? l); apply some_inj in H; subst s'; cbn [lim ctl answers]; auto.
  - rewrite C in H. apply some_inj in H. subst s'. cbn [lim ctl answers].
    assert (N : numEntries c s = 0). { pose proof (numEntries_le c s W I). pose proof (items_lim c s W I). lia. }
    rewrite N. unfold work. destruct (mode c); try (contradiction M; reflexivity); cbn [Z.eqb]; auto.
  - rewrite C in H. discriminate.
Qed.
Lemma dead_stays c s : wfConf c -> mode c <> FreeMemoryOnly -> inv c s -> lim s = 0 -> ctl s = CIdle -> deadForever c s.
Proof.
  intros W M I L C l s' R.
  assert (G : forall l s0 x0, inv c s0 -> lim s0 = 0 -> ctl s0 = CIdle -> answers s0 = answers s ++ x0 -> (forall p, ~ In (p, true) x0) ->
    run c s0 l = Some s' -> inv c s' /\ lim s' = 0 /\ exists x, answers s' = answers s ++ x /\ forall p, ~ In (p, true) x).
  { clear l R. intro l; induction l as [|a l IH]; cbn [run]; intros s0 x0 I0 L0 C0 A0 X0 R; [apply some_inj in R; subst; eauto|].
    destruct (step c s0 a) as [s1|] eqn:E; [|discriminate].
    destruct (dead_step c s0 a s1 W M I0 L0 C0 E) as (L1 & C1 & x & A1 & X1).
    apply (IH s1 (x0 ++ x)); try assumption; [exact (inv_step c s0 a s1 W I0 E)|rewrite A1, A0, app_assoc; reflexivity|].
    intros p Ip. apply in_app_or in Ip. destruct Ip; [apply (X0 p)|apply (X1 p)]; assumption. }
  destruct (G l s [] I L C) as (I' & L' & x & A & X); [rewrite app_nil_r; reflexivity|intros p []|exact R|].
  pose proof (numEntries_le c s' W I'). pose proof (items_lim c s' W I'). split; [lia|].
  intro p. rewrite A, skipn_app, Nat.sub_diag, skipn_all. cbn [skipn app]. apply X.
Qed.

(** The history that empties the cache for good: one object bigger than the limit. *)
Lemma killed c sl z fm rss : wfConf c -> mode c <> FreeMemoryOnly -> shards c <= entLimit c -> 0 < sl < z ->
  exists s, run c (init c sl) ([UAlloc 0 true; UPublish 0] ++ CStart z fm rss :: repeat (CStep true fm) (Z.to_nat (entLimit c)) ++ [CStep true fm]) = Some s /\
    answers s = [(0, true)] /\ deadForever c s.
Proof.
  intros W M HS Hz. pose proof W as (W1 & W2 & W3 & W4).
  pose proof (inv_init c sl W) as I0.
  pose proof (usable_bounds c (init c sl) 0 W I0 ltac:(lia)) as [U _]. cbn [lim init] in U.
  assert (1 <= entLimit c / shards c) by (apply Z.div_le_lower_bound; lia).
  set (s1 := mkSt (fun _ => 0) (upd (fun _ => 0) 0 1) (ph (init c sl)) (entLimit c) sl CIdle [(0, true)]).
  set (s2 := mkSt (upd (fun _ => 0) 0 1) (upd (upd (fun _ => 0) 0 1) 0 0) (ph (init c sl)) (entLimit c) sl CIdle [(0, true)]).
  assert (R0 : inRange c 0 = true) by (unfold inRange; destruct (Z.ltb_spec 0 (shards c)); [reflexivity|lia]).
  assert (ST1 : step c (init c sl) (UAlloc 0 true) = Some s1).
  { unfold step. rewrite R0. unfold alloc. destruct (Z.ltb_spec 0 (free c (init c sl) 0)) as [F|F]; [reflexivity|].
    unfold usable in U. unfold free in F. cbn [ent held init] in F. lia. }
  assert (ST2 : step c s1 (UPublish 0) = Some s2) by (unfold step; rewrite R0; reflexivity).
  assert (I2 : inv c s2) by (exact (inv_step c s1 _ s2 W (inv_step c _ _ s1 W I0 ST1) ST2)).
  assert (H2 : forall p, 0 <= p < shards c -> held s2 p = 0).
  { intros p Hp. cbn [held s2]. unfold upd. destruct (p =? 0); reflexivity. }
  assert (N2 : numEntries c s2 = 1).
  { unfold numEntries. rewrite (sumTo_ext _ (fun p => if 0 =? p then 1 else 0)); [apply sumTo_one; lia|].
    intros p Hp. cbn [ent s2]. unfold upd. rewrite Z.eqb_sym. destruct (0 =? p); reflexivity. }
  destruct (over_shrinks c (entLimit c) sl 1 z fm rss M ltac:(lia) ltac:(lia) ltac:(lia) ltac:(lia)) as (n & Hw & Hn).
  replace (1 * z) with z in Hw by lia.
  rewrite Z.div_small in Hn by lia. assert (n = entLimit c) by lia. subst n.
  destruct (shrink_whole c s2 z fm rss (entLimit c) W I2 eq_refl H2) as (s & R & I & L & C & _ & _ & A); [rewrite N2; exact Hw|cbn [lim s2]; lia|].
  exists s. split. { cbn [app]. cbn [run]. rewrite ST1, ST2. exact R. }
  split; [exact A|]. apply dead_stays; try assumption. cbn [lim s2] in L. lia.
Qed.

(** ensureFreeMemoryAboveLowerLimit does not return while memory stays low. *)
Lemma loops c fm : wfConf c -> mode c = FreeMemoryOnly -> fm < lower c -> forall sl k, exists s,
  run c (init c sl) (CStart 0 fm 0 :: repeat (CStep true fm) k) = Some s /\ ctl s <> CIdle.
Proof.
  intros W M Hf sl k.
  assert (G : forall k s, inv c s -> (exists n, ctl s = CShrink n true) -> exists s', run c s (repeat (CStep true fm) k) = Some s' /\ ctl s' <> CIdle).
  { clear k. intro k; induction k as [|k IH]; intros s I (n & C).
    - exists s. split; [reflexivity|]. rewrite C. discriminate.
    - destruct (step c s (CStep true fm)) as [s1|] eqn:E.
      2:{ exfalso. apply (ctl_defined c s true fm I); [rewrite C; discriminate|exact E]. }
      assert (C1 : exists m, ctl s1 = CShrink m true).
      { unfold step in E. rewrite C in E. destruct (n <=? 0).
        - apply some_inj in E. subst s1. cbn [ctl andb]. destruct (Z.ltb_spec fm (lower c)); [eauto|lia].
        - destruct (alloc c s (nextShard c s) true); apply some_inj in E; subst s1; cbn [ctl]; eauto. }
      destruct (IH s1 (inv_step c s _ s1 W I E) C1) as (s' & R & N). exists s'. cbn [repeat run]. rewrite E. auto. }
  assert (ST : exists s1, step c (init c sl) (CStart 0 fm 0) = Some s1 /\ exists n, ctl s1 = CShrink n true).
  { unfold step. cbn [ctl init]. eexists. split; [reflexivity|]. cbn [ctl]. unfold work. rewrite M. destruct (Z.ltb_spec fm (lower c)); [eauto|lia]. }
  destruct ST as (s1 & ST & C1). cbn [run]. rewrite ST. apply G; [|exact C1]. exact (inv_step c _ _ s1 W (inv_init c sl W) ST).
Qed.

(** With fewer entries than shards, shard 0 has no slot. *)
Lemma starved c sl ev : wfConf c -> entLimit c < shards c ->
  exists s, step c (init c sl) (UAlloc 0 ev) = Some s /\ answers s = [(0, false)].
Proof.
  intros (W1 & W2 & W3 & W4) H.
  set (n := Z.to_nat (shards c * slots c - entLimit c)).
  assert (C : cnt 0 (ph (init c sl)) = slots c).
  { cbn [ph init]. fold n. rewrite cnt_initPh by lia.
    assert (E : Z.of_nat n = (shards c - entLimit c) + (slots c - 1) * shards c) by (unfold n; lia).
    rewrite E, Z.div_add, Z.mod_add by lia. rewrite Z.div_small, Z.mod_small by lia.
    destruct (Z.ltb_spec 0 (shards c - entLimit c)); lia. }
  unfold step, inRange. destruct (Z.ltb_spec 0 (shards c)); [|lia]. cbn [Z.leb Z.compare andb].
  unfold alloc, free. rewrite C. cbn [ent held init].
  replace (slots c - 0 - 0 - slots c) with 0 by lia. cbn [Z.ltb Z.compare]. rewrite andb_false_r.
  eexists. split; [reflexivity|]. reflexivity.
Qed.
