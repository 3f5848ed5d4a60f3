(** The slots of the shards. *)
From Coq Require Import List ZArith Bool Lia.
Import ListNotations.
From Verif Require Import SizeCtl_model SizeCtl_spec SizeCtl_proofs1.
Open Scope Z_scope.

Lemma sumTo_ext f g n : (forall p, 0 <= p < Z.of_nat n -> f p = g p) -> sumTo f n = sumTo g n.
Proof. induction n as [|n IH]; cbn [sumTo]; intro H; [reflexivity|]. rewrite IH by (intros; apply H; lia). rewrite H by lia. reflexivity. Qed.
Lemma sumTo_add f g n : sumTo (fun p => f p + g p) n = sumTo f n + sumTo g n.
Proof. induction n; cbn [sumTo]; lia. Qed.
Lemma sumTo_const k n : sumTo (fun _ => k) n = Z.of_nat n * k.
Proof. induction n; cbn [sumTo]; lia. Qed.
Lemma sumTo_nonneg f n : (forall p, 0 <= p < Z.of_nat n -> 0 <= f p) -> 0 <= sumTo f n.
Proof. induction n as [|n IH]; cbn [sumTo]; intro H; [lia|]. specialize (IH ltac:(intros; apply H; lia)). specialize (H (Z.of_nat n)). lia. Qed.
Lemma sumTo_zero f n : (forall p, 0 <= p < Z.of_nat n -> 0 <= f p) -> sumTo f n = 0 -> forall p, 0 <= p < Z.of_nat n -> f p = 0.
Proof.
  induction n as [|n IH]; cbn [sumTo]; intros H E p Hp; [lia|].
  pose proof (sumTo_nonneg f n ltac:(intros; apply H; lia)) as N. pose proof (H (Z.of_nat n) ltac:(lia)).
  destruct (Z.eq_dec p (Z.of_nat n)) as [->|D]; [lia|]. apply IH; try lia. intros; apply H; lia.
Qed.
Lemma sumTo_one q n : 0 <= q < Z.of_nat n -> sumTo (fun p => if q =? p then 1 else 0) n = 1.
Proof.
  induction n as [|n IH]; cbn [sumTo]; intro H; [lia|].
  destruct (Z.eq_dec q (Z.of_nat n)) as [->|D].
  - rewrite Z.eqb_refl. rewrite (sumTo_ext _ (fun _ => 0)); [rewrite sumTo_const; lia|].
    intros p Hp. destruct (Z.eqb_spec (Z.of_nat n) p); [lia|reflexivity].
  - rewrite IH by lia. destruct (Z.eqb_spec q (Z.of_nat n)); lia.
Qed.
Lemma cnt_app p a b : cnt p (a ++ b) = cnt p a + cnt p b.
Proof. induction a as [|q a IH]; cbn [cnt app]; [reflexivity|]. rewrite IH. lia. Qed.
Lemma cnt_nonneg p l : 0 <= cnt p l.
Proof. induction l as [|q l IH]; cbn [cnt]; [lia|]. destruct (q =? p); lia. Qed.
Lemma sum_cnt n l : (forall q, In q l -> 0 <= q < Z.of_nat n) -> sumTo (fun p => cnt p l) n = Z.of_nat (length l).
Proof.
  induction l as [|q l IH]; intro H.
  - cbn [cnt length]. rewrite sumTo_const. lia.
  - cbn [cnt length]. rewrite sumTo_add, sumTo_one by (apply H; left; reflexivity). rewrite IH by (intros; apply H; right; assumption). lia.
Qed.

Lemma initPh_S c n : initPh c (S n) = initPh c n ++ [Z.of_nat n mod shards c].
Proof. unfold initPh. rewrite seq_S, map_app. reflexivity. Qed.
Lemma initPh_len c n : length (initPh c n) = n.
Proof. unfold initPh. rewrite map_length, seq_length. reflexivity. Qed.
Lemma initPh_in c n q : 1 <= shards c -> In q (initPh c n) -> 0 <= q < shards c.
Proof. intros H I. unfold initPh in I. apply in_map_iff in I. destruct I as (i & <- & _). apply Z.mod_pos_bound. lia. Qed.

(* how many of the first n placeholders a shard has *)
Lemma cnt_initPh c n p : 1 <= shards c -> 0 <= p < shards c ->
  cnt p (initPh c n) = Z.of_nat n / shards c + (if p <? Z.of_nat n mod shards c then 1 else 0).
Proof.
  intros Hm Hp. set (m := shards c) in *. induction n as [|n IH].
  - cbn [initPh seq map cnt]. rewrite Z.div_0_l, Z.mod_0_l by lia. destruct (Z.ltb_spec p 0); lia.
  - rewrite initPh_S, cnt_app, IH. cbn [cnt]. fold m.
    pose proof (Z.div_mod (Z.of_nat n) m ltac:(lia)) as D. pose proof (Z.mod_pos_bound (Z.of_nat n) m ltac:(lia)) as B.
    rewrite Nat2Z.inj_succ. unfold Z.succ.
    set (q := Z.of_nat n / m) in *. set (r := Z.of_nat n mod m) in *. clearbody q r.
    destruct (Z.eq_dec (r + 1) m) as [E|E].
    + replace (Z.of_nat n + 1) with ((q + 1) * m) by lia. rewrite Z.div_mul, Z.mod_mul by lia.
      destruct (Z.ltb_spec p r), (Z.eqb_spec r p), (Z.ltb_spec p 0); lia.
    + replace (Z.of_nat n + 1) with ((r + 1) + q * m) by lia. rewrite Z.div_add, Z.mod_add by lia.
      rewrite Z.div_small, Z.mod_small by lia.
      destruct (Z.ltb_spec p r), (Z.eqb_spec r p), (Z.ltb_spec p (r + 1)); lia.
Qed.

Record inv (c : conf) (s : state) : Prop := mkInv {
  iPh : ph s = initPh c (length (ph s));
  iSum : lim s + Z.of_nat (length (ph s)) = shards c * slots c;
  iLim : lim s <= entLimit c;
  iNn : forall p, 0 <= p < shards c -> 0 <= ent s p /\ 0 <= held s p /\ 0 <= free c s p;
  iCtl : match ctl s with CExpand n => n <= Z.of_nat (length (ph s)) /\ (0 < n -> lim s + n <= entLimit c) | _ => True end
}.

Lemma items_le c s : wfConf c -> ph s = initPh c (length (ph s)) ->
  items c s + sumTo (free c s) (Z.to_nat (shards c)) = shards c * slots c - Z.of_nat (length (ph s)).
Proof.
  intros (W1 & W2 & W3 & W4) P. unfold items.
  assert (C : sumTo (fun p => cnt p (ph s)) (Z.to_nat (shards c)) = Z.of_nat (length (ph s))).
  { apply sum_cnt. intros q I. rewrite P in I. apply initPh_in in I; lia. }
  rewrite <- sumTo_add.
  rewrite (sumTo_ext _ (fun p => slots c + (-1) * cnt p (ph s))) by (intros; unfold free; lia).
  rewrite sumTo_add, sumTo_const.
  assert (M : forall f n, sumTo (fun p => -1 * f p) n = - sumTo f n) by (intros f; induction n; cbn [sumTo]; lia).
  rewrite M, C. lia.
Qed.
Lemma items_lim c s : wfConf c -> inv c s -> 0 <= items c s <= lim s.
Proof.
  intros W I. pose proof (items_le c s W (iPh c s I)) as E. pose proof (iSum c s I).
  assert (0 <= sumTo (free c s) (Z.to_nat (shards c))).
  { apply sumTo_nonneg. intros p Hp. apply (iNn c s I). lia. }
  assert (0 <= items c s). { apply sumTo_nonneg. intros p Hp. pose proof (iNn c s I p). lia. }
  lia.
Qed.

Lemma inv_init c sl : wfConf c -> inv c (init c sl).
Proof.
  intros (W1 & W2 & W3 & W4). unfold init.
  set (n := Z.to_nat (shards c * slots c - entLimit c)).
  constructor; cbn [ph lim ctl ent held].
  - rewrite initPh_len. reflexivity.
  - rewrite initPh_len. unfold n. lia.
  - lia.
  - intros p Hp. split; [lia|]. split; [lia|]. unfold free. cbn [ent held ph].
    rewrite cnt_initPh by lia.
    assert (N : Z.of_nat n <= shards c * slots c) by (unfold n; lia).
    pose proof (Z.div_mod (Z.of_nat n) (shards c) ltac:(lia)) as D. pose proof (Z.mod_pos_bound (Z.of_nat n) (shards c) ltac:(lia)) as B.
    set (q := Z.of_nat n / shards c) in *. set (r := Z.of_nat n mod shards c) in *.
    destruct (Z.ltb_spec p r); nia.
  - exact Logic.I.
Qed.

Lemma upd_eq f p v : upd f p v p = v.
Proof. unfold upd. rewrite Z.eqb_refl. reflexivity. Qed.
Lemma upd_ne f p v q : q <> p -> upd f p v q = f q.
Proof. unfold upd. intro H. destruct (Z.eqb_spec q p); [contradiction|reflexivity]. Qed.

Lemma some_inj {A} (x y : A) : Some x = Some y -> x = y.
Proof. intro H. injection H. auto. Qed.

(* what an allocation leaves: a free slot in the shard *)
Lemma alloc_spec c s p ev e : alloc c s p ev = Some e ->
  (e p = ent s p /\ 0 < free c s p \/ e p = ent s p - 1 /\ 0 < ent s p) /\ (forall q, q <> p -> e q = ent s q).
Proof.
  unfold alloc. destruct (Z.ltb_spec 0 (free c s p)) as [L|L].
  - intro H; apply some_inj in H; subst e. auto.
  - destruct ev; [|discriminate]. cbn [andb]. destruct (Z.ltb_spec 0 (ent s p)) as [L2|L2]; [|discriminate].
    intro H; apply some_inj in H; subst e. split; [right; rewrite upd_eq; lia|]. intros q D. apply upd_ne, D.
Qed.

Ltac caseq q p D := destruct (Z.eq_dec q p) as [D|D]; [subst q; rewrite ?upd_eq|rewrite ?(upd_ne _ _ _ _ D)].

Lemma inv_step c s a s' : wfConf c -> inv c s -> step c s a = Some s' -> inv c s'.
Proof.
  intros W I. pose proof (items_lim c s W I) as IL. pose proof W as W0. destruct W as (W1 & W2 & W3 & W4).
  destruct I as [IP IS IM IN IC].
  unfold step. destruct a as [p ev|p|p|p|l|tot fm rss|ev fm].
  - unfold inRange. destruct (Z.leb_spec 0 p); [|discriminate]. destruct (Z.ltb_spec p (shards c)); [|discriminate]. cbn [andb].
    destruct (alloc c s p ev) as [e|] eqn:A; intro H'; apply some_inj in H'; subst s'; constructor; cbn [ph lim ctl ent held]; try assumption.
    destruct (alloc_spec _ _ _ _ _ A) as [A1 A2]. intros q Hq. specialize (IN q Hq). unfold free in *. cbn [ph ent held].
    caseq q p D; [lia|]. rewrite A2 by assumption. lia.
  - unfold inRange. destruct (Z.leb_spec 0 p); [|discriminate]. destruct (Z.ltb_spec p (shards c)); [|discriminate]. cbn [andb].
    destruct (Z.ltb_spec 0 (held s p)); [|discriminate]. intro H'; apply some_inj in H'; subst s'; constructor; cbn [ph lim ctl ent held]; try assumption.
    intros q Hq. specialize (IN q Hq). unfold free in *. cbn [ph ent held]. caseq q p D; lia.
  - unfold inRange. destruct (Z.leb_spec 0 p); [|discriminate]. destruct (Z.ltb_spec p (shards c)); [|discriminate]. cbn [andb].
    destruct (Z.ltb_spec 0 (ent s p)); [|discriminate]. intro H'; apply some_inj in H'; subst s'; constructor; cbn [ph lim ctl ent held]; try assumption.
    intros q Hq. specialize (IN q Hq). unfold free in *. cbn [ph ent held]. caseq q p D; lia.
  - unfold inRange. destruct (Z.leb_spec 0 p); [|discriminate]. destruct (Z.ltb_spec p (shards c)); [|discriminate]. cbn [andb].
    destruct (Z.ltb_spec 0 (held s p)); [|discriminate]. intro H'; apply some_inj in H'; subst s'; constructor; cbn [ph lim ctl ent held]; try assumption.
    intros q Hq. specialize (IN q Hq). unfold free in *. cbn [ph ent held]. caseq q p D; lia.
  - destruct (0 <? l); intro H'; apply some_inj in H'; subst s'; constructor; assumption.
  - destruct (ctl s) eqn:C; [|discriminate|discriminate].
    intro H'; apply some_inj in H'; subst s'; constructor; cbn [ph lim ctl ent held]; try assumption.
    destruct (work c (lim s) (sizeLim s) (numEntries c s) tot fm rss) as [|n|n|]; try exact Logic.I.
    destruct (Z.ltb_spec (lim s) (entLimit c)); lia.
  - destruct (ctl s) as [|n ens|n] eqn:C; [discriminate| |].
    + destruct (Z.leb_spec n 0) as [L|L].
      * intro H'; apply some_inj in H'; subst s'; constructor; cbn [ph lim ctl ent held]; try assumption.
        all: destruct (ens && (fm <? lower c)); exact Logic.I.
      * set (p := nextShard c s) in *.
        assert (RP : 0 <= p < shards c) by (unfold p, nextShard; apply Z.mod_pos_bound; lia).
        destruct (alloc c s p ev) as [e|] eqn:A; intro H'; apply some_inj in H'; subst s'.
        2:{ constructor; cbn [ph lim ctl ent held]; try assumption; try exact Logic.I. }
        destruct (alloc_spec _ _ _ _ _ A) as [A1 A2].
        assert (NEW : ph s ++ [p] = initPh c (length (ph s ++ [p]))).
        { rewrite app_length. cbn [length]. rewrite Nat.add_1_r, initPh_S. rewrite <- IP. reflexivity. }
        assert (FR : forall q, 0 <= q < shards c -> 0 <= e q /\ 0 <= held s q /\ 0 <= slots c - e q - held s q - cnt q (ph s ++ [p])).
        { intros q Hq. specialize (IN q Hq). unfold free in *. rewrite cnt_app. cbn [cnt].
          destruct (Z.eq_dec q p) as [->|D]; [rewrite Z.eqb_refl; lia|]. rewrite A2 by assumption.
          destruct (Z.eqb_spec p q); [subst; contradiction|]. lia. }
        set (s1 := mkSt e (held s) (ph s ++ [p]) 0 0 CIdle []).
        pose proof (items_le c s1 W0 NEW) as E1. 
        assert (0 <= sumTo (free c s1) (Z.to_nat (shards c))) by (apply sumTo_nonneg; intros q Hq; apply FR; lia).
        assert (0 <= items c s1). { apply sumTo_nonneg. intros q Hq. cbn [ent held s1]. pose proof (FR q). lia. }
        cbn [ph s1] in E1. rewrite app_length in E1. cbn [length] in E1.
        assert (WL : wr (lim s - 1) = lim s - 1) by (apply wr_id; lia).
        constructor; cbn [ph lim ctl ent held].
        -- exact NEW.
        -- rewrite WL, app_length. cbn [length]. lia.
        -- lia.
        -- exact FR.
        -- exact Logic.I.
    + destruct (Z.leb_spec n 0) as [L|L].
      * intro H'; apply some_inj in H'; subst s'; constructor; cbn [ph lim ctl ent held]; try assumption; try exact Logic.I.
      * destruct (ph s) as [|x l] eqn:P; [discriminate|]. rewrite <- P in *.
        intro H'; apply some_inj in H'; subst s'.
        assert (exists k, length (ph s) = S k) as (k & K) by (rewrite P; cbn [length]; eauto).
        assert (RL : removelast (ph s) = initPh c k). { rewrite IP, K, initPh_S. apply removelast_last. }
        assert (WL : wr (lim s + 1) = lim s + 1) by (apply wr_id; lia).
        constructor; cbn [ph lim ctl ent held]; rewrite ?RL, ?initPh_len, ?WL.
        -- reflexivity.
        -- lia.
        -- lia.
        -- intros q Hq. specialize (IN q Hq). unfold free in *. cbn [ph ent held]. rewrite ?RL.
           rewrite IP, K, initPh_S, cnt_app in IN. pose proof (cnt_nonneg q [Z.of_nat k mod shards c]). lia.
        -- lia.
Qed.

Lemma inv_run c sl l s : wfConf c -> run c (init c sl) l = Some s -> inv c s.
Proof.
  intro W. assert (G : forall l s0, inv c s0 -> run c s0 l = Some s -> inv c s).
  { intro l0; induction l0 as [|a l0 IH]; cbn [run]; intros s0 I H; [apply some_inj in H; subst; exact I|].
    destruct (step c s0 a) as [s1|] eqn:E; [|discriminate]. apply (IH s1); [|exact H]. exact (inv_step c s0 a s1 W I E). }
  apply G. apply inv_init, W.
Qed.

(* the slots of each shard that are left for entries *)
Lemma usable_bounds c s p : wfConf c -> inv c s -> 0 <= p < shards c ->
  lim s / shards c <= usable c s p <= (lim s + shards c - 1) / shards c.
Proof.
  intros (W1 & W2 & W3 & W4) [IP IS IM IN IC] Hp. unfold usable. rewrite IP, cnt_initPh by assumption.
  set (n := Z.of_nat (length (ph s))) in *. set (m := shards c) in *.
  pose proof (Z.div_mod n m ltac:(lia)) as D. pose proof (Z.mod_pos_bound n m ltac:(lia)) as B.
  set (q := n / m) in *. set (r := n mod m) in *. clearbody q r.
  assert (E : lim s = m * (slots c - q) - r) by lia.
  split.
  - apply Z.lt_succ_r. apply Z.div_lt_upper_bound; [lia|].
    destruct (Z.ltb_spec p r); nia.
  - apply Z.div_le_lower_bound; [lia|]. destruct (Z.ltb_spec p r); nia.
Qed.
Lemma usable_sum c s : wfConf c -> inv c s -> sumTo (usable c s) (Z.to_nat (shards c)) = lim s.
Proof.
  intros W I. pose proof (iSum c s I). pose proof (iPh c s I) as P. destruct W as (W1 & W2 & W3 & W4).
  assert (C : sumTo (fun p => cnt p (ph s)) (Z.to_nat (shards c)) = Z.of_nat (length (ph s))).
  { apply sum_cnt. intros q Iq. rewrite P in Iq. apply initPh_in in Iq; lia. }
  pose proof (sumTo_add (usable c s) (fun p => cnt p (ph s)) (Z.to_nat (shards c))) as A.
  rewrite (sumTo_ext _ (fun _ => slots c)) in A by (intros; unfold usable; lia). rewrite sumTo_const in A. lia.
Qed.
