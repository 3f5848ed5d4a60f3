(** * The hash table of Map: Robin Hood invariant, find, insertOrReplace, remove. *)
From Verif Require Import Bytes DtBuffer_model DtMap_model.
Ltac Zify.zify_post_hook ::= idtac.
Local Open Scope nat_scope.

Section T.
Variable hash : N -> N.
Notation desired := (desired hash).

Lemma desired_lt c k : 1 <= c -> desired c k < c.
Proof.
  intro Hc. unfold DtMap_model.desired.
  assert (u32 (hash k) < 2 ^ 32)%N by (unfold u32; apply N.mod_lt; discriminate).
  set (h := u32 (hash k)) in *. clearbody h.
  assert (h * N.of_nat c / 2 ^ 32 < N.of_nat c)%N; [ | lia ].
  apply N.div_lt_upper_bound; [ discriminate | ]. apply N.mul_lt_mono_pos_r; lia.
Qed.

(** positions on the circle *)
Definition pos (c h d : nat) : nat := (h + d) mod c.
Lemma pos_lt c h d : 1 <= c -> pos c h d < c.
Proof. intro. unfold pos. apply Nat.mod_upper_bound. lia. Qed.
Lemma pos_cases c h d : h < c -> d < c -> (h + d < c /\ pos c h d = h + d) \/ (c <= h + d /\ pos c h d = h + d - c).
Proof.
  intros A B. unfold pos. destruct (Nat.lt_ge_cases (h + d) c) as [L | L].
  - left. split; [ lia | ]. apply Nat.mod_small. lia.
  - right. split; [ lia | ]. replace (h + d) with (h + d - c + 1 * c) at 1 by lia.
    rewrite Nat.mod_add by lia. apply Nat.mod_small. lia.
Qed.
Lemma pos_0 c h : h < c -> pos c h 0 = h.
Proof. intro. destruct (pos_cases c h 0); lia. Qed.
Lemma pos_S c h d : h < c -> S d < c -> pos c h (S d) = nextIx c (pos c h d).
Proof.
  intros A B. unfold nextIx. destruct (pos_cases c h d) as [[? ->] | [? ->]]; try lia;
    destruct (pos_cases c h (S d)) as [[? ->] | [? ->]]; try lia.
  - destruct (Nat.eqb_spec (S (h + d)) c); lia.
  - destruct (Nat.eqb_spec (S (h + d)) c); lia.
  - destruct (Nat.eqb_spec (S (h + d - c)) c); lia.
Qed.
Lemma probe_pos c h d : h < c -> d < c -> probe c h (pos c h d) = d.
Proof.
  intros A B. unfold probe. destruct (pos_cases c h d) as [[? ->] | [? ->]]; try lia.
  - destruct (Nat.leb_spec h (h + d)); lia.
  - destruct (Nat.leb_spec h (h + d - c)); lia.
Qed.
Lemma probe_lt c h i : h < c -> i < c -> probe c h i < c.
Proof. intros. unfold probe. destruct (Nat.leb_spec h i); lia. Qed.
Lemma pos_probe c h i : h < c -> i < c -> pos c h (probe c h i) = i.
Proof.
  intros A B. pose proof (probe_lt c h i A B) as P. destruct (pos_cases c h (probe c h i) A P) as [[E ->] | [E ->]];
    unfold probe in *; destruct (Nat.leb_spec h i); lia.
Qed.
Lemma nextIx_lt c i : i < c -> nextIx c i < c.
Proof. intro. unfold nextIx. destruct (Nat.eqb_spec (S i) c); lia. Qed.
Lemma nextIx_inj c i j : i < c -> j < c -> nextIx c i = nextIx c j -> i = j.
Proof. unfold nextIx. intros. destruct (Nat.eqb_spec (S i) c), (Nat.eqb_spec (S j) c); lia. Qed.
Lemma nextIx_probe c h i d : h < c -> i < c -> probe c h (nextIx c i) = S d -> probe c h i = d.
Proof.
  unfold nextIx, probe. intros A B. destruct (Nat.eqb_spec (S i) c); intro D.
  - destruct (Nat.leb_spec h 0), (Nat.leb_spec h i); lia.
  - destruct (Nat.leb_spec h (S i)), (Nat.leb_spec h i); lia.
Qed.
Lemma nextIx_neq c i : 2 <= c -> i < c -> nextIx c i <> i.
Proof. unfold nextIx. intros. destruct (Nat.eqb_spec (S i) c); lia. Qed.
Lemma prev_ex c i : i < c -> exists p, p < c /\ nextIx c p = i.
Proof.
  intro. exists (if i =? 0 then c - 1 else i - 1). unfold nextIx.
  destruct (Nat.eqb_spec i 0); split; try lia.
  - replace (S (c - 1)) with c by lia. rewrite Nat.eqb_refl. lia.
  - replace (S (i - 1)) with i by lia. destruct (Nat.eqb_spec i c); lia.
Qed.

(** number of entries *)
Definition some {A} (o : option A) : bool := match o with Some _ => true | None => false end.
Fixpoint cnt (f : nat -> option (N * N)) (n : nat) : nat :=
  match n with O => 0 | S m => (if some (f m) then 1 else 0) + cnt f m end.
Lemma cnt_updt f i e n : cnt (updt f i e) n + (if (i <? n) && some (f i) then 1 else 0) = cnt f n + (if (i <? n) && some e then 1 else 0).
Proof.
  induction n as [ | n IH]; [ reflexivity | ]. cbn [cnt]. unfold updt at 1.
  destruct (Nat.eqb_spec n i) as [-> | Ne].
  - replace (i <? S i) with true by (symmetry; apply Nat.ltb_lt; lia).
    replace (i <? i) with false in IH by (symmetry; apply Nat.ltb_ge; lia). cbn [andb] in *. destruct (some e), (some (f i)); lia.
  - replace (i <? S n) with (i <? n).
    2:{ destruct (Nat.ltb_spec i n), (Nat.ltb_spec i (S n)); auto; lia. }
    destruct (some (f n)), ((i <? n) && some (f i)), ((i <? n) && some e); lia.
Qed.
Lemma cnt_le f n : cnt f n <= n.
Proof. induction n; cbn; [ lia | ]. destruct (some (f n)); lia. Qed.
Lemma cnt_null f n : cnt f n < n -> exists z, z < n /\ f z = None.
Proof.
  induction n as [ | n IH]; cbn; [ lia | ]. destruct (f n) eqn:E; cbn; intro.
  - destruct IH as (z & Z1 & Z2); [ lia | ]. exists z; split; [ lia | auto ].
  - exists n; split; [ lia | auto ].
Qed.
Lemma cnt_pos f n i : i < n -> f i <> None -> 1 <= cnt f n.
Proof.
  induction n as [ | n IH]; [ lia | ]. cbn. intros A B. destruct (Nat.eq_dec i n) as [-> | Ne].
  - destruct (f n); [ cbn; lia | congruence ].
  - assert (1 <= cnt f n) by (apply IH; [ lia | auto ]). lia.
Qed.

Definition dist (c : nat) (k : N) (i : nat) : nat := probe c (desired c k) i.
Definition RH (c : nat) (f : nat -> option (N * N)) : Prop :=
  forall i k a d, i < c -> f (nextIx c i) = Some (k, a) -> dist c k (nextIx c i) = S d ->
                  exists k' a', f i = Some (k', a') /\ d <= dist c k' i.
Definition uniq (c : nat) (f : nat -> option (N * N)) : Prop :=
  forall i j k a a', i < c -> j < c -> f i = Some (k, a) -> f j = Some (k, a') -> i = j.
Record tinv (t : table) : Prop := TInv {
  ti_cap : 1 <= tcap t; ti_rh : RH (tcap t) (ents t); ti_uniq : uniq (tcap t) (ents t);
  ti_cnt : cnt (ents t) (tcap t) = tnum t; ti_lt : tnum t < tcap t }.
Definition has (t : table) (k a : N) : Prop := exists i, i < tcap t /\ ents t i = Some (k, a).

Lemma rh_back c f : RH c f -> forall p k a, p < c -> f p = Some (k, a) ->
  forall e, e <= dist c k p -> exists k' a', f (pos c (desired c k) e) = Some (k', a') /\ e <= dist c k' (pos c (desired c k) e).
Proof.
  intros R p k a Hp Hf e. assert (Hc : 1 <= c) by lia. pose proof (desired_lt c k Hc) as Hh.
  pose proof (probe_lt c _ p Hh Hp) as Hd. unfold dist at 1. remember (probe c (desired c k) p - e) as n eqn:En. revert e En.
  induction n as [ | n IH]; intros e En Le.
  - assert (e = probe c (desired c k) p) by lia. subst e. rewrite pos_probe by auto. exists k, a. split; auto.
  - destruct (IH (S e)) as (k1 & a1 & F1 & D1); [ lia | lia | ].
    rewrite pos_S in F1, D1 by lia.
    assert (Hq : pos c (desired c k) e < c) by (apply pos_lt; auto).
    destruct (dist c k1 (nextIx c (pos c (desired c k) e))) as [ | d1] eqn:Ed; [ lia | ].
    destruct (R _ _ _ _ Hq F1 Ed) as (k2 & a2 & F2 & D2). exists k2, a2. split; [ auto | lia ].
Qed.

(** the walk so far: every position passed holds another key that is at least as far from home *)
Record walk (c : nat) (f : nat -> option (N * N)) (k : N) (i d : nat) : Prop := Walk {
  w_pos : i = pos c (desired c k) d; w_lt : d < c;
  w_all : forall e, e < d -> exists k' a', f (pos c (desired c k) e) = Some (k', a') /\ k' <> k /\ e <= dist c k' (pos c (desired c k) e) }.
Lemma walk0 c f k : 1 <= c -> walk c f k (desired c k) 0.
Proof. intro. constructor; [ symmetry; apply pos_0; apply desired_lt; auto | lia | lia ]. Qed.
Lemma walk_step c f k i d k' a' : 1 <= c -> walk c f k i d -> f i = Some (k', a') -> k' <> k -> d <= dist c k' i ->
  (exists z, z < c /\ f z = None) -> walk c f k (nextIx c i) (S d).
Proof.
  intros Hc [P L A] Fi Nk D (z & Hz & Fz). pose proof (desired_lt c k Hc) as Hh.
  assert (A' : forall e, e < S d -> exists k' a', f (pos c (desired c k) e) = Some (k', a') /\ k' <> k /\ e <= dist c k' (pos c (desired c k) e)).
  { intros e Le. destruct (Nat.eq_dec e d) as [-> | Ne]; [ rewrite <- P; eauto | apply A; lia ]. }
  assert (S d < c).
  { destruct (Nat.lt_ge_cases (S d) c); auto. exfalso.
    destruct (A' (probe c (desired c k) z)) as (x & y & F & _).
    - pose proof (probe_lt c _ z Hh Hz). lia.
    - rewrite pos_probe in F by auto. congruence. }
  constructor; auto. rewrite P. symmetry. apply pos_S; auto.
Qed.
(** a walk that reaches null, or an entry nearer to its home, has seen every place the key could be *)
Lemma walk_absent c f k i d : 1 <= c -> RH c f -> uniq c f -> walk c f k i d ->
  (f i = None \/ exists k' a', f i = Some (k', a') /\ k' <> k /\ dist c k' i < d) ->
  forall p a, p < c -> f p <> Some (k, a).
Proof.
  intros Hc R U [P L A] C p a Hp Fp. pose proof (desired_lt c k Hc) as Hh.
  pose proof (rh_back c f R p k a Hp Fp) as B.
  destruct (Nat.lt_ge_cases (dist c k p) d) as [Lt | Ge].
  - destruct (A _ Lt) as (k' & a' & F & N & _). unfold dist in F. rewrite pos_probe in F by auto. congruence.
  - destruct (B d Ge) as (k' & a' & F & D). rewrite <- P in F, D.
    destruct C as [C | (k1 & a1 & F1 & N1 & D1)]; [ congruence | ]. rewrite F1 in F. inversion F; subst. lia.
Qed.
Lemma tinv_null t : tinv t -> exists z, z < tcap t /\ ents t z = None.
Proof. intros [? ? ? C L]. apply cnt_null. lia. Qed.
Lemma has_fun t k a a' : tinv t -> has t k a -> has t k a' -> a = a'.
Proof. intros [_ _ U _ _] (i & Hi & Fi) (j & Hj & Fj). pose proof (U _ _ _ _ _ Hi Hj Fi Fj). subst. congruence. Qed.

Lemma rd_lt t i : i < tcap t -> rd t i = Some (ents t i).
Proof. intro L. unfold rd. apply Nat.ltb_lt in L. rewrite L. reflexivity. Qed.

Lemma findFrom_ok t k : tinv t -> forall fuel i d, walk (tcap t) (ents t) k i d -> tcap t < fuel + d ->
  (exists j a, findFrom hash fuel t k i d = Some (Some (j, a)) /\ j < tcap t /\ ents t j = Some (k, a)) \/
  (findFrom hash fuel t k i d = Some None /\ forall a, ~ has t k a).
Proof.
  intros T. pose proof (tinv_null t T) as Z. pose proof T as [Hc R U _ _].
  induction fuel as [ | f IH]; intros i d W Lf; [ destruct W; lia | ].
  assert (Hi : i < tcap t) by (destruct W as [-> _ _]; apply pos_lt; auto).
  cbn [findFrom]. rewrite rd_lt by auto. cbn match beta. destruct (ents t i) as [[k' a'] | ] eqn:Fi.
  - destruct (N.eqb_spec k' k) as [-> | Nk].
    + left. exists i, a'. auto.
    + destruct (Nat.ltb_spec (probe (tcap t) (desired (tcap t) k') i) d) as [Lt | Ge].
      * right. split; auto. intros a (p & Hp & Fp). eapply walk_absent; eauto. right. exists k', a'. auto.
      * apply IH; [ | lia ]. eapply walk_step; eauto.
  - right. split; auto. intros a (p & Hp & Fp). eapply walk_absent; eauto.
Qed.
Lemma tFind_ok t k : tinv t ->
  (exists j a, tFind hash t k = Some (Some (j, a)) /\ j < tcap t /\ ents t j = Some (k, a)) \/
  (tFind hash t k = Some None /\ forall a, ~ has t k a).
Proof. intro T. apply findFrom_ok; auto; [ apply walk0; apply T | lia ]. Qed.

(** ** insertOrReplace *)
Lemma updt_same f i e : updt f i e i = e.
Proof. unfold updt. rewrite Nat.eqb_refl. reflexivity. Qed.
Lemma updt_other f i e j : j <> i -> updt f i e j = f j.
Proof. intro. unfold updt. destruct (Nat.eqb_spec j i); congruence. Qed.

(** writing at position i an entry that is farther from its home than the old one *)
Lemma rh_put c f k a i d : 1 <= c -> RH c f -> walk c f k i d ->
  (forall k' a', f i = Some (k', a') -> dist c k' i <= d) -> RH c (updt f i (Some (k, a))).
Proof.
  intros Hc R [P L A] C j kj aj e Hj Fj De. pose proof (desired_lt c k Hc) as Hh.
  assert (Dk : dist c k i = d) by (unfold dist; rewrite P; apply probe_pos; auto).
  assert (Hi : i < c) by (rewrite P; apply pos_lt; auto).
  destruct (Nat.eq_dec (nextIx c j) i) as [E | E].
  - rewrite E in Fj, De. rewrite updt_same in Fj. inversion Fj; subst kj aj. rewrite Dk in De.
    subst d. destruct (A e) as (k' & a' & F & N & D); [ lia | ].
    assert (Pj : pos c (desired c k) e = j).
    { apply (nextIx_inj c); auto; [ apply pos_lt; auto | ]. rewrite <- pos_S by auto. rewrite <- P. auto. }
    rewrite Pj in F, D. destruct (Nat.eq_dec j i) as [-> | Nj].
    + rewrite updt_same. exists k, a. split; auto. lia.
    + rewrite updt_other by auto. eauto.
  - rewrite updt_other in Fj by auto. destruct (R _ _ _ _ Hj Fj De) as (k' & a' & F & D).
    destruct (Nat.eq_dec j i) as [-> | Nj].
    + rewrite updt_same. exists k, a. split; auto. rewrite Dk. specialize (C _ _ F). lia.
    + rewrite updt_other by auto. eauto.
Qed.
Lemma uniq_put c f k a i : i < c -> uniq c f -> (forall p b, p < c -> f p = Some (k, b) -> p = i) -> uniq c (updt f i (Some (k, a))).
Proof.
  intros Hi U A p q k1 a1 a2 Hp Hq Fp Fq. unfold updt in *.
  destruct (Nat.eqb_spec p i), (Nat.eqb_spec q i); subst; auto.
  - inversion Fp; subst. symmetry. eapply A; eauto.
  - inversion Fq; subst. eapply A; eauto.
  - eapply U; eauto.
Qed.
(** distance from i to a null position *)
Definition gap (c i z : nat) : nat := probe c i z.
Lemma gap_next c i z : i < c -> z < c -> i <> z -> S (gap c (nextIx c i) z) = gap c i z.
Proof.
  unfold gap, probe, nextIx. intros A B D. destruct (Nat.eqb_spec (S i) c).
  - destruct (Nat.leb_spec 0 z), (Nat.leb_spec i z); lia.
  - destruct (Nat.leb_spec (S i) z), (Nat.leb_spec i z); lia.
Qed.

Lemma insFrom_ok : forall fuel t k a i d z,
  tinv t -> walk (tcap t) (ents t) k i d -> S (tnum t) < tcap t -> z < tcap t -> ents t z = None -> gap (tcap t) i z < fuel ->
  exists t' old, insFrom hash fuel t k a i d = Some (IDone t' old) /\ tinv t' /\ tcap t' = tcap t /\
    (forall k1 a1, has t' k1 a1 <-> (k1 = k /\ a1 = a) \/ (k1 <> k /\ has t k1 a1)) /\
    (match old with Some o => has t k o /\ tnum t' = tnum t | None => (forall o, ~ has t k o) /\ tnum t' = S (tnum t) end).
Proof.
  induction fuel as [ | f IH]; intros t k a i d z T W Room Hz Fz G; [ lia | ].
  pose proof T as [Hc R U C Lt]. assert (Hi : i < tcap t) by (destruct W as [-> _ _]; apply pos_lt; auto).
  cbn [insFrom]. rewrite rd_lt by auto. cbn match beta.
  destruct (ents t i) as [[k' a'] | ] eqn:Fi.
  - assert (Niz : i <> z) by congruence.
    destruct (N.eqb_spec k' k) as [-> | Nk].
    + (* replace *)
      assert (Dk : dist (tcap t) k i = d) by (destruct W as [-> Ld _]; unfold dist; apply probe_pos; auto; apply desired_lt; auto).
      eexists _, _. split; [ reflexivity | ]. split; [ constructor; cbn [tcap tnum ents] | cbn [tcap tnum ents] ]; auto.
      * eapply rh_put; eauto. intros k' a2 F. rewrite Fi in F. inversion F; subst k' a2. lia.
      * apply uniq_put; auto. intros p b Hp Fp. eapply U; eauto.
      * pose proof (cnt_updt (ents t) i (Some (k, a)) (tcap t)) as E. rewrite Fi in E. cbn [some] in E. lia.
      * split; [ auto | ]. split; [ | split; [ exists i; auto | auto ] ].
        intros k1 a1. unfold has. cbn [tcap ents]. split.
        -- intros (p & Hp & Fp). unfold updt in Fp. destruct (Nat.eqb_spec p i) as [-> | Np].
           ++ inversion Fp; auto.
           ++ right. split; [ intro; subst k1; apply Np; eapply U; eauto | eauto ].
        -- intros [[-> ->] | [Nk (p & Hp & Fp)]].
           ++ exists i. rewrite updt_same. auto.
           ++ exists p. split; auto. rewrite updt_other; auto. intro; subst p. rewrite Fi in Fp. congruence.
    + fold (dist (tcap t) k' i). destruct (Nat.ltb_spec (dist (tcap t) k' i) d) as [Ld | Ge].
      * (* displace *)
        assert (Abs : forall p b, p < tcap t -> ents t p <> Some (k, b)).
        { intros p b Hp. eapply walk_absent; eauto. right. exists k', a'. auto. }
        set (t1 := mkT (tcap t) (tnum t) (updt (ents t) i (Some (k, a)))).
        assert (T1 : tinv t1).
        { constructor; cbn [t1 tcap tnum ents]; auto.
          - eapply rh_put; eauto. intros k2 a2 F. rewrite Fi in F. inversion F; subst. lia.
          - apply uniq_put; auto. intros p b Hp Fp. exfalso. eapply Abs; eauto.
          - pose proof (cnt_updt (ents t) i (Some (k, a)) (tcap t)) as E. rewrite Fi in E. cbn [some] in E. lia. }
        assert (Dk : dist (tcap t) k i = d) by (destruct W as [-> Ldc _]; unfold dist; apply probe_pos; auto; apply desired_lt; auto).
        pose proof (desired_lt (tcap t) k' Hc) as Hh'. pose proof (probe_lt _ _ _ Hh' Hi) as Lp. fold (dist (tcap t) k' i) in Lp.
        assert (Pi : pos (tcap t) (desired (tcap t) k') (dist (tcap t) k' i) = i) by (unfold dist; apply pos_probe; auto).
        assert (W1 : walk (tcap t1) (ents t1) k' (nextIx (tcap t1) i) (S (dist (tcap t) k' i))).
        { eapply walk_step; try apply T1.
          - constructor; [ symmetry; apply Pi | exact Lp | ].
            intros e Le. destruct (rh_back _ _ R i k' a' Hi Fi e) as (k2 & a2 & F2 & D2); [ lia | ].
            exists k2, a2. cbn [t1 tcap ents]. assert (Np : pos (tcap t) (desired (tcap t) k') e <> i).
            { intro E. assert (dist (tcap t) k' i = e); [ | lia ]. rewrite <- E. unfold dist. apply probe_pos; auto. lia. }
            rewrite updt_other by auto. split; auto. split; auto. intro; subst k2. apply Np. eapply U; eauto. apply pos_lt; auto.
          - cbn [t1 ents]. apply updt_same.
          - auto.
          - cbn [t1 tcap]. lia.
          - exists z. cbn [t1 tcap ents]. rewrite updt_other by auto. auto. }
        assert (Fz1 : ents t1 z = None) by (cbn [t1 ents]; rewrite updt_other; auto).
        destruct (IH t1 k' a' (nextIx (tcap t1) i) (S (dist (tcap t) k' i)) z T1 W1) as (t' & old & E & T' & C' & Hs & Ho); auto.
        { cbn [t1 tcap]. pose proof (gap_next (tcap t) i z Hi Hz Niz). lia. }
        assert (Nk' : forall o, ~ has t1 k' o).
        { intros o (p & Hp & Fp). cbn [t1 tcap ents] in *. unfold updt in Fp. destruct (Nat.eqb_spec p i) as [-> | Np]; [ congruence | ].
          apply Np. eapply U; eauto. }
        destruct old as [o | ]; [ destruct Ho as [Ho _]; exfalso; eapply Nk'; eauto | ].
        exists t', None. split; [ exact E | ]. split; [ auto | ]. split; [ rewrite C'; auto | ]. split.
        -- intros k1 a1. rewrite Hs. split.
           ++ intros [[-> ->] | [N1 (p & Hp & Fp)]].
              ** right. split; auto. exists i. auto.
              ** cbn [t1 tcap ents] in *. unfold updt in Fp. destruct (Nat.eqb_spec p i) as [-> | Np]; [ inversion Fp; auto | ].
                 right. split; [ intro; subst k1; eapply Abs; eauto | exists p; auto ].
           ++ intros [[-> ->] | [N1 (p & Hp & Fp)]].
              ** right. split; auto. exists i. cbn [t1 tcap ents]. rewrite updt_same. auto.
              ** destruct (Nat.eq_dec p i) as [-> | Np]; [ left; split; congruence | ].
                 right. split; [ intro; subst k1; apply Np; eapply U; eauto | ]. exists p. cbn [t1 tcap ents]. rewrite updt_other by auto. auto.
        -- split; [ intros o (p & Hp & Fp); eapply Abs; eauto | ]. destruct Ho as [_ ->]. reflexivity.
      * (* go on *)
        apply IH with (z := z); auto.
        -- eapply walk_step; eauto.
        -- pose proof (gap_next (tcap t) i z Hi Hz Niz). lia.
  - assert (Abs : forall p b, p < tcap t -> ents t p <> Some (k, b)) by (intros p b Hp; eapply walk_absent; eauto).
    eexists _, _. split; [ reflexivity | ]. split; [ constructor; cbn [tcap tnum ents] | cbn [tcap tnum ents] ]; auto.
    + eapply rh_put; eauto. congruence.
    + apply uniq_put; auto. intros p b Hp Fp. exfalso. eapply Abs; eauto.
    + pose proof (cnt_updt (ents t) i (Some (k, a)) (tcap t)) as E. rewrite Fi in E. cbn [some] in E.
      apply Nat.ltb_lt in Hi. rewrite Hi in E. cbn [andb] in E. lia.
    + split; [ auto | ]. split; [ | split; [ intros o (p & Hp & Fp); eapply Abs; eauto | auto ] ].
      intros k1 a1. unfold has. cbn [tcap ents]. split.
      * intros (p & Hp & Fp). unfold updt in Fp. destruct (Nat.eqb_spec p i) as [-> | Np]; [ inversion Fp; auto | ].
        right. split; [ intro; subst k1; eapply Abs; eauto | eauto ].
      * intros [[-> ->] | [Nk (p & Hp & Fp)]].
        -- exists i. rewrite updt_same. auto.
        -- exists p. split; auto. rewrite updt_other; auto. congruence.
Qed.
Lemma tInsert_ok t k a : tinv t -> a <> nullAddr -> S (tnum t) <> tcap t ->
  exists t' old, tInsert hash t k a = Some (IDone t' old) /\ tinv t' /\ tcap t' = tcap t /\
    (forall k1 a1, has t' k1 a1 <-> (k1 = k /\ a1 = a) \/ (k1 <> k /\ has t k1 a1)) /\
    (match old with Some o => has t k o /\ tnum t' = tnum t | None => (forall o, ~ has t k o) /\ tnum t' = S (tnum t) end).
Proof.
  intros T Na Nf. unfold tInsert. destruct (N.eqb_spec a nullAddr); [ congruence | ].
  destruct (Nat.eqb_spec (S (tnum t)) (tcap t)); [ congruence | ].
  destruct (tinv_null t T) as (z & Hz & Fz). eapply insFrom_ok with (z := z); eauto.
  - apply walk0. apply T.
  - pose proof (ti_lt t T). lia.
  - pose proof (probe_lt (tcap t) (desired (tcap t) k) z (desired_lt _ k (ti_cap t T)) Hz). unfold gap. lia.
Qed.
Lemma tInsert_full t k a : a <> nullAddr -> S (tnum t) = tcap t -> tInsert hash t k a = Some IFull.
Proof. intros Na E. unfold tInsert. destruct (N.eqb_spec a nullAddr); [ congruence | ]. rewrite E, Nat.eqb_refl. reflexivity. Qed.

(** ** remove: backward shift.  The hole holds a stale entry. *)
Lemma shiftFrom_ok : forall fuel t i z,
  1 <= tcap t -> RH (tcap t) (ents t) -> cnt (ents t) (tcap t) = tnum t -> tnum t < tcap t ->
  (forall p q k a a', p < tcap t -> q < tcap t -> p <> i -> q <> i -> ents t p = Some (k, a) -> ents t q = Some (k, a') -> p = q) ->
  i < tcap t -> ents t i <> None -> z < tcap t -> ents t z = None -> gap (tcap t) i z <= fuel ->
  exists t', shiftFrom hash fuel t i = Some t' /\ tinv t' /\ tcap t' = tcap t /\ S (tnum t') = tnum t /\
    (forall k a, has t' k a <-> exists p, p < tcap t /\ p <> i /\ ents t p = Some (k, a)).
Proof.
  induction fuel as [ | f IH]; intros t i z Hc R C Lt U Hi Fi Hz Fz G.
  { assert (i = z); [ | congruence ]. unfold gap, probe in G. destruct (Nat.leb_spec i z); lia. }
  assert (Niz : i <> z) by congruence. assert (Hc2 : 2 <= tcap t) by lia.
  cbn [shiftFrom].
  replace (if i =? tcap t - 1 then 0 else S i) with (nextIx (tcap t) i).
  2:{ unfold nextIx. destruct (Nat.eqb_spec (S i) (tcap t)), (Nat.eqb_spec i (tcap t - 1)); lia. }
  set (j := nextIx (tcap t) i). assert (Hj : j < tcap t) by (apply nextIx_lt; auto).
  assert (Nji : j <> i) by (apply nextIx_neq; auto).
  rewrite rd_lt by auto. cbn match beta.
  assert (Fin : (ents t j = None \/ exists k a, ents t j = Some (k, a) /\ dist (tcap t) k j = 0) ->
    exists t', Some (mkT (tcap t) (tnum t - 1) (updt (ents t) i None)) = Some t' /\ tinv t' /\ tcap t' = tcap t /\ S (tnum t') = tnum t /\
    (forall k a, has t' k a <-> exists p, p < tcap t /\ p <> i /\ ents t p = Some (k, a))).
  { intro D. eexists. split; [ reflexivity | ]. pose proof (cnt_pos _ _ _ Hi Fi) as Pn. split; [ constructor; cbn [tcap tnum ents]; auto | cbn [tcap tnum ents] ].
    - intros p k a d Hp Fp Dp. destruct (Nat.eq_dec (nextIx (tcap t) p) i) as [E | E]; [ rewrite E, updt_same in Fp; congruence | ].
      rewrite updt_other in Fp by auto. destruct (Nat.eq_dec p i) as [-> | Np].
      + fold j in Fp, Dp. destruct D as [D | (k0 & a0 & F0 & D0)]; [ congruence | ]. rewrite F0 in Fp. inversion Fp; subst. lia.
      + destruct (R _ _ _ _ Hp Fp Dp) as (k' & a' & F & D'). rewrite updt_other by auto. eauto.
    - intros p q k a a' Hp Hq Fp Fq. unfold updt in *. destruct (Nat.eqb_spec p i), (Nat.eqb_spec q i); try congruence. eapply U; eauto.
    - pose proof (cnt_updt (ents t) i None (tcap t)) as E. destruct (ents t i); [ | congruence ]. cbn [some] in E.
      apply Nat.ltb_lt in Hi. rewrite Hi in E. cbn [andb] in E. lia.
    - lia.
    - split; [ auto | ]. split; [ lia | ]. intros k a. unfold has. cbn [tcap ents]. split.
      + intros (p & Hp & Fp). unfold updt in Fp. destruct (Nat.eqb_spec p i); [ congruence | ]. eauto.
      + intros (p & Hp & Np & Fp). exists p. rewrite updt_other by auto. auto. }
  destruct (ents t j) as [[k' a'] | ] eqn:Fj.
  - fold (dist (tcap t) k' j). destruct (Nat.eqb_spec (dist (tcap t) k' j) 0) as [D0 | D0].
    + apply Fin. right. exists k', a'. auto.
    + clear Fin. destruct (dist (tcap t) k' j) as [ | d] eqn:Dj; [ congruence | ].
      pose proof (desired_lt (tcap t) k' Hc) as Hh'.
      assert (Di : dist (tcap t) k' i = d) by (eapply nextIx_probe; eauto).
      assert (Njz : j <> z) by congruence.
      set (t1 := mkT (tcap t) (tnum t) (updt (ents t) i (Some (k', a')))).
      assert (R1 : RH (tcap t1) (ents t1)).
      { cbn [t1 tcap ents]. intros p k a e Hp Fp Dp. destruct (Nat.eq_dec (nextIx (tcap t) p) i) as [E | E].
        - rewrite E in Fp, Dp. rewrite updt_same in Fp. inversion Fp; subst k a.
          destruct (R i k' a' d Hi Fj Dj) as (ki & ai & Fi' & Dki).
          assert (Np : p <> i) by (intro; subst p; apply Nji; auto).
          destruct (dist (tcap t) ki i) as [ | e'] eqn:Ek; [ lia | ]. rewrite <- E in Fi', Ek.
          destruct (R _ _ _ _ Hp Fi' Ek) as (kp & ap & Fp' & Dp'). rewrite updt_other by auto. exists kp, ap. split; auto. lia.
        - rewrite updt_other in Fp by auto. destruct (Nat.eq_dec p i) as [-> | Np].
          + fold j in Fp, Dp. rewrite Fj in Fp. inversion Fp; subst k a. rewrite updt_same. exists k', a'. split; auto. lia.
          + destruct (R _ _ _ _ Hp Fp Dp) as (kp & ap & Fp' & Dp'). rewrite updt_other by auto. eauto. }
      destruct (IH t1 j z) as (t' & E & T' & C' & N' & Hs); auto.
      * cbn [t1 tcap ents tnum]. pose proof (cnt_updt (ents t) i (Some (k', a')) (tcap t)) as E. destruct (ents t i); [ | congruence ].
        cbn [some tnum] in *. apply Nat.ltb_lt in Hi. rewrite Hi in E. cbn [andb] in E. lia.
      * cbn [t1 tcap ents]. intros p q k a b Hp Hq Np Nq Fp Fq. unfold updt in Fp, Fq.
        destruct (Nat.eqb_spec p i) as [-> | Npi], (Nat.eqb_spec q i) as [-> | Nqi]; auto.
        -- inversion Fp; subst. exfalso. apply Nq. symmetry. eapply U; [ exact Hj | exact Hq | auto | auto | exact Fj | exact Fq ].
        -- inversion Fq; subst. exfalso. apply Np. symmetry. eapply U; [ exact Hj | exact Hp | auto | auto | exact Fj | exact Fp ].
        -- eapply (U p q); eauto.
      * cbn [t1 ents]. rewrite updt_other by auto. congruence.
      * cbn [t1 ents]. rewrite updt_other; auto.
      * cbn [t1 tcap]. pose proof (gap_next (tcap t) i z Hi Hz Niz). fold j in H. lia.
      * exists t'. split; [ exact E | ]. split; [ auto | ]. split; [ auto | ]. split; [ auto | ].
        intros k a. rewrite Hs. cbn [t1 tcap ents]. split.
        -- intros (p & Hp & Np & Fp). unfold updt in Fp. destruct (Nat.eqb_spec p i) as [-> | Npi].
           ++ inversion Fp; subst. exists j. auto.
           ++ exists p. auto.
        -- intros (p & Hp & Np & Fp). destruct (Nat.eq_dec p j) as [-> | Npj].
           ++ exists i. rewrite updt_same. split; auto. split; auto. congruence.
           ++ exists p. rewrite updt_other by auto. auto.
  - apply Fin. auto.
Qed.
Lemma tRemove_ok t k : tinv t ->
  (tRemove hash t k = Some (t, None) /\ forall a, ~ has t k a) \/
  (exists t' a, tRemove hash t k = Some (t', Some a) /\ has t k a /\ tinv t' /\ tcap t' = tcap t /\ S (tnum t') = tnum t /\
     forall k1 a1, has t' k1 a1 <-> k1 <> k /\ has t k1 a1).
Proof.
  intro T. unfold tRemove. destruct (tFind_ok t k T) as [(j & a & E & Hj & Fj) | (E & A)]; rewrite E; cbn match beta.
  - right. destruct (tinv_null t T) as (z & Hz & Fz). pose proof T as [Hc R U C L].
    destruct (shiftFrom_ok (S (tcap t)) t j z) as (t' & E' & T' & C' & N' & Hs); auto.
    + intros p q k0 a0 a1 Hp Hq _ _ Fp Fq. eapply U; eauto.
    + congruence.
    + pose proof (probe_lt (tcap t) j z Hj Hz). unfold gap. lia.
    + rewrite E'. cbn match beta. exists t', a. split; auto. split; [ exists j; auto | ]. split; auto. split; auto. split; auto.
      intros k1 a1. rewrite Hs. split.
      * intros (p & Hp & Np & Fp). split; [ intro; subst k1; apply Np; eapply U; eauto | exists p; auto ].
      * intros (Nk & p & Hp & Fp). exists p. split; auto. split; auto. intro; subst p. congruence.
  - left. auto.
Qed.

Lemma newTable_inv c : 1 <= c -> tinv (newTable c).
Proof.
  intro. constructor; cbn [newTable tcap tnum ents]; auto.
  - intros i k a d _ F. discriminate.
  - intros i j k a a' _ _ F. discriminate.
  - clear. induction c; auto.
Qed.
Lemma has_new c k a : ~ has (newTable c) k a.
Proof. intros (i & _ & F). discriminate. Qed.

(** ** growing: all entries into a larger table *)
Definition keysL (l : list (option (N * N))) : list N := flat_map (fun e => match e with Some (k, _) => [k] | None => [] end) l.
Lemma refill_ok : forall l t, tinv t -> (forall k a, In (Some (k, a)) l -> a <> nullAddr) -> NoDup (keysL l) ->
  (forall k a, In k (keysL l) -> ~ has t k a) -> tnum t + length (keysL l) < tcap t ->
  exists t', refill hash l t = Some t' /\ tinv t' /\ tcap t' = tcap t /\ tnum t' = tnum t + length (keysL l) /\
    (forall k a, has t' k a <-> In (Some (k, a)) l \/ has t k a).
Proof.
  induction l as [ | [[k a] | ] l IH]; intros t T Na ND Fr Lt; cbn [refill].
  - exists t. cbn. split; [ auto | ]. split; [ auto | ]. split; [ auto | ]. split; [ lia | ]. tauto.
  - cbn in ND, Fr, Lt. fold (keysL l) in ND, Fr, Lt. destruct (tInsert_ok t k a T) as (t1 & old & E & T1 & C1 & Hs & Ho).
    { eapply Na. left. reflexivity. }
    { lia. }
    rewrite E. cbn match beta. destruct old as [o | ]; [ destruct Ho as [Ho _]; exfalso; eapply (Fr k); eauto | ].
    destruct Ho as [_ Ho].
    inversion ND as [ | ? ? Nin ND']; subst.
    destruct (IH t1) as (t' & E' & T' & C' & N' & Hs'); auto.
    + intros. eapply Na. right. eauto.
    + intros k1 a1 Hin Hh. apply Hs in Hh. destruct Hh as [[-> _] | [_ Hh]]; [ contradiction | ]. eapply Fr; eauto.
    + rewrite Ho, C1. unfold keysL in *. lia.
    + exists t'. split; auto. split; auto. split; [ congruence | ]. split; [ rewrite N', Ho; unfold keysL; cbn; lia | ].
      intros k1 a1. rewrite Hs', Hs. cbn. split.
      * intros [A | [[-> ->] | [N A]]]; auto.
      * intros [[A | A] | A]; auto; [ inversion A; auto | ]. right. destruct (N.eq_dec k1 k) as [-> | Nk]; [ | auto ].
        exfalso. eapply (Fr k); eauto.
  - destruct (IH t) as (t' & E' & T' & C' & N' & Hs'); auto.
    + intros. eapply Na. right. eauto.
    + exists t'. split; auto. split; auto. split; auto. split; [ rewrite N'; reflexivity | ].
      intros k1 a1. rewrite Hs'. cbn. split; [ tauto | ]. intros [[A | A] | A]; auto. discriminate.
Qed.
Lemma keysL_cnt f c : length (keysL (map f (seq 0 c))) = cnt f c.
Proof.
  induction c as [ | c IH]; auto. rewrite seq_S, map_app. unfold keysL in *. rewrite flat_map_app, app_length, IH. cbn.
  destruct (f c) as [[? ?] | ]; cbn; lia.
Qed.
Lemma keysL_in f s c k : In k (keysL (map f (seq s c))) <-> exists i a, s <= i < s + c /\ f i = Some (k, a).
Proof.
  unfold keysL. rewrite in_flat_map. split.
  - intros (e & He & Hk). apply in_map_iff in He. destruct He as (i & Fi & Hi). apply in_seq in Hi. destruct e as [[k' a] | ]; [ | destruct Hk ].
    destruct Hk as [-> | []]. exists i, a. auto.
  - intros (i & a & Hi & Fi). exists (Some (k, a)). split; [ apply in_map_iff; exists i; split; auto; apply in_seq; lia | left; auto ].
Qed.
Lemma keysL_nodup f s c : (forall i j k a a', s <= i < s + c -> s <= j < s + c -> f i = Some (k, a) -> f j = Some (k, a') -> i = j) ->
  NoDup (keysL (map f (seq s c))).
Proof.
  revert s. induction c as [ | c IH]; intros s U; cbn; [ constructor | ].
  assert (ND : NoDup (keysL (map f (seq (S s) c)))) by (apply IH; intros i j k a a' Hi Hj; apply U; lia).
  destruct (f s) as [[k a] | ] eqn:F; cbn; [ | exact ND ]. constructor; [ | exact ND ].
  intro Hin. apply keysL_in in Hin. destruct Hin as (i & b & Hi & Fi). assert (s = i) by (eapply U; eauto; lia). lia.
Qed.
Lemma rebuild_ok t c : tinv t -> tcap t <= c -> (forall k a, has t k a -> a <> nullAddr) ->
  exists t', refill hash (map (ents t) (seq 0 (tcap t))) (newTable c) = Some t' /\ tinv t' /\ tcap t' = c /\ tnum t' = tnum t /\
    (forall k a, has t' k a <-> has t k a).
Proof.
  intros T Hc Na. pose proof T as [C1 R U C L].
  assert (In' : forall k a, In (Some (k, a)) (map (ents t) (seq 0 (tcap t))) <-> has t k a).
  { intros k a. rewrite in_map_iff. unfold has. split.
    - intros (i & F & Hi). apply in_seq in Hi. exists i. split; auto. lia.
    - intros (i & Hi & F). exists i. split; auto. apply in_seq. lia. }
  destruct (refill_ok (map (ents t) (seq 0 (tcap t))) (newTable c)) as (t' & E & T' & C' & N' & Hs).
  - apply newTable_inv. lia.
  - intros k a Hin. apply In' in Hin. eapply Na; eauto.
  - apply keysL_nodup. intros i j k a a' Hi Hj. apply U; lia.
  - intros k a _ Hh. eapply has_new; eauto.
  - rewrite keysL_cnt. cbn [newTable tnum tcap]. lia.
  - exists t'. split; auto. split; auto. split; auto. rewrite keysL_cnt, C in N'. split; auto.
    intros k a. rewrite Hs, In'. split; auto. intros [A | A]; auto. exfalso. eapply has_new; eauto.
Qed.
End T.
