(** The main invariant, under the guards. *)
From Coq Require Import List Arith Bool Lia.
Import ListNotations.
From Verif Require Import NvmRace_model NvmRace_spec NvmRace_proofs.

Definition whoMut (w : who) : option nat := match w with WIns n _ | WRem n | WUpd n _ => Some n | WSpur => None end.
Definition mutOf (t : tst) : option nat :=
  match t with
  | TIAcc n | TUClean n _ | TMFind n | TMAcc n _ => Some n
  | TTomb w | TLock w | TInv w | THas w | TCould w | TEnq w | TRet w => whoMut w
  | _ => None
  end.
Definition isMut (t : tst) : bool := match mutOf t with Some _ => true | None => false end.
Definition tokVer (t : tst) : option nat :=
  match t with TEUnlink _ v true | TEPut v | TECtx v | TEExec v => Some v | _ => None end.
Definition locked (s : state) : Prop := exists v, phase s = PLocked v.
Definition noIns (q : list job) : Prop := forall v, ~ In (JIns v) q.

(** "Everything older than [L] on the flash side is doomed." *)
Record Q (L : nat) (s : state) : Prop := mkQ {
  q_c : forall v, content s = Some v -> v < L -> In JRem (queue s);
  q_i : forall v l1 l2, queue s = l1 ++ JIns v :: l2 -> v < L -> In JRem l2;
  q_r : match phase s with
        | PRead (Some v) | PGot v => v < L -> ctxValid s = true -> In JRem (queue s)
        | PLocked v => L <= v
        | _ => True end }.
Definition Qt (L : nat) (s : state) : Prop :=
  token s = Some true -> forall t v, In t (thr s) -> tokVer t = Some v -> L <= v.

Definition ramIs (s : state) (i : nat) : Prop := exists it, ram s = Some it /\ iid it = i /\ excl it = false.
Definition whoOk (s : state) (w : who) : Prop :=
  match w with
  | WIns n i => exists it, ram s = Some it /\ iid it = i /\ ver it = n /\ excl it = false
  | WUpd n i => ramIs s i
  | WRem n => findRam s = None
  | WSpur => True
  end.
Definition whoOk0 (s : state) (w : who) : Prop := match w with WRem _ => True | _ => whoOk s w end.
Definition TI (s : state) (t : tst) : Prop :=
  match t with
  | TUClean n i => ramIs s i
  | TTomb w | TLock w => whoOk0 s w
  | TInv w => whoOk s w /\ ~ locked s
  | THas w | TEnq w => whoOk s w /\ ~ locked s /\ (forall n, whoMut w = Some n -> Qt (S n) s)
  | TCould w => whoOk s w /\ ~ locked s /\ (forall n, whoMut w = Some n -> Qt (S n) s) /\ noIns (queue s)
  | TMFind n => ~ locked s
  | TMAcc n i => ramIs s i /\ ~ locked s
  | TRet w => whoOk s w /\ (forall n, whoMut w = Some n -> Q (S n) s /\ Qt (S n) s)
  | _ => True
  end.
Definition window (t : tst) (i : nat) : Prop :=
  match t with
  | TTomb w | TLock w | TInv w | THas w | TCould w | TEnq w => whoItem w = Some i
  | _ => False
  end.
Record Inv (s : state) (tr : list event) : Prop := mkInv {
  i_en : enabled s = true;
  i_cnt : counts s;
  i_nm : floor tr < nextm s;
  i_act : cnt isMut (thr s) = someN (active tr);
  i_actn : forall t n, In t (thr s) -> mutOf t = Some n -> active tr = Some n;
  i_last : forall n, active tr = Some n -> S n = nextm s /\ floor tr < n;
  i_bc : forall v, content s = Some v -> v <= floor tr;
  i_bi : forall v, In (JIns v) (queue s) -> v <= floor tr;
  i_bp : match phase s with PRead (Some v) | PGot v | PLocked v => v <= floor tr | _ => True end;
  i_bt : forall t v, In t (thr s) -> tokVer t = Some v -> v <= floor tr;
  i_ram : forall it, ram s = Some it -> (excl it = false -> floor tr <= ver it) /\ iid it < nexti s /\
            (ver it <= floor tr \/ exists t, In t (thr s) /\ pinOf t = Some (iid it) /\ isMut t = true);
  i_unl : forall i v b, In (TEUnlink i v b) (thr s) -> i < nexti s /\
            (forall it, ram s = Some it -> iid it = i -> excl it = true);
  i_Q : Q (floor tr) s;
  i_Qt : Qt (floor tr) s;
  i_rQ : forall it, ram s = Some it -> excl it = false -> clean it = false ->
           (forall t, In t (thr s) -> ~ window t (iid it)) -> Q (S (ver it)) s /\ Qt (S (ver it)) s;
  i_TI : forall t, In t (thr s) -> isMut t = true -> TI s t;
  i_rd : match phase s with
         | PRead (Some v) | PGot v => ctxValid s = true -> pend tr = false -> content s = Some v
         | _ => True end }.

Lemma inv_init : Inv init [].
Proof.
  constructor; cbn; try tauto; try discriminate; try lia; auto using counts_init.
  all: constructor; cbn; try tauto; try discriminate; intros v l1 l2 H; destruct l1; discriminate.
Qed.

(** *** Small facts *)
Lemma isMut_pin t i : pinOf t = Some i -> isMut t = true.
Proof. destruct t; cbn; try discriminate; unfold isMut; cbn; try reflexivity; destruct w; cbn; try discriminate; reflexivity. Qed.
Lemma window_pin t i : window t i -> pinOf t = Some i.
Proof. destruct t; cbn; tauto. Qed.
Lemma Q_le L L' s : Q L s -> (forall v, content s = Some v -> v < L' -> v < L) ->
  (forall v, In (JIns v) (queue s) -> v < L' -> v < L) ->
  (match phase s with PRead (Some v) | PGot v => v < L' -> v < L | PLocked v => L <= v -> L' <= v | _ => True end) ->
  Q L' s.
Proof.
  intros [A B C] H1 H2 H3. constructor.
  - intros v E K. apply (A v E). auto.
  - intros v l1 l2 E K. apply (B v l1 l2 E). apply H2; [rewrite E; apply in_app_iff; right; left; reflexivity|exact K].
  - destruct (phase s) as [| |[v|]| v | v | |]; auto.
Qed.
(** all flash-side versions are at most the floor: levels above it are interchangeable *)
Lemma Q_up s tr L L' : Inv s tr -> Q L s -> floor tr < L -> Q L' s.
Proof.
  intros I H F. apply (Q_le L); [exact H| | |].
  - intros v E _. pose proof (i_bc _ _ I v E). lia.
  - intros v E _. pose proof (i_bi _ _ I v E). lia.
  - pose proof (i_bp _ _ I) as B. destruct (phase s) as [| |[v|]| v | v | |]; auto; intros; lia.
Qed.
Lemma Qt_up s tr L L' : Inv s tr -> Qt L s -> floor tr < L -> Qt L' s.
Proof.
  intros I H F T t v E V. pose proof (H T t v E V). pose proof (i_bt _ _ I t v E V). lia.
Qed.
Lemma rem_tombs s : counts s -> In JRem (queue s) -> 1 <= tombs s.
Proof. intros C H. rewrite (c_tomb _ C). pose proof (cnt_pos isRem (queue s) JRem H eq_refl). lia. Qed.
Lemma hold_tombs s t : counts s -> In t (thr s) -> holdTomb t = true -> 1 <= tombs s.
Proof. intros C H E. rewrite (c_tomb _ C). pose proof (cnt_pos holdTomb (thr s) t H E). lia. Qed.
Lemma ctx_ins s v : counts s -> In (JIns v) (queue s) -> 1 <= putctx s.
Proof. intros C H. rewrite (c_ctx _ C). pose proof (cnt_pos isIns (queue s) (JIns v) H eq_refl). lia. Qed.
Lemma reading_fill s : counts s -> (match phase s with PRead _ | PGot _ | PLocked _ | PErase => True | _ => False end) -> fill s <> None.
Proof.
  intros C P E. pose proof (c_head _ C) as Hd. unfold headOk in Hd. pose proof (c_fill _ C) as F. rewrite E in F. cbn in F.
  destruct (phase s); try contradiction; destruct Hd as (q & X); rewrite X in F; cbn in F; lia.
Qed.
Lemma findRam_none s : findRam s = None <-> (forall it, ram s = Some it -> excl it = true).
Proof.
  unfold findRam. destruct (ram s) as [it|].
  - destruct (excl it) eqn:E; split; intros H; try discriminate; auto.
    + intros it' K. injection K as <-. exact E.
    + specialize (H it eq_refl). congruence.
  - split; [intros _ it K; discriminate|reflexivity].
Qed.
Lemma findRam_some s it : findRam s = Some it -> ram s = Some it /\ excl it = false.
Proof. unfold findRam. destruct (ram s) as [x|]; [|discriminate]. destruct (excl x) eqn:E; [discriminate|]. intros H. injection H as <-. auto. Qed.
Lemma pinned_spec s i : pinned s i = false -> forall t, In t (thr s) -> pinOf t <> Some i.
Proof.
  unfold pinned. intros H t I E.
  assert (X : existsb (fun t => match pinOf t with Some j => Nat.eqb i j | None => false end) (thr s) = true).
  { apply existsb_exists. exists t. split; [exact I|]. rewrite E. apply Nat.eqb_refl. }
  congruence.
Qed.

(** *** Steps that leave mutators and RAM alone *)
Definition itemSame (a b : item) : Prop := iid a = iid b /\ ver a = ver b /\ clean a = clean b /\ excl a = excl b.
Definition ramSame (r r' : option item) : Prop :=
  match r, r' with Some a, Some b => itemSame a b | None, None => True | _, _ => False end.
Lemma ramSame_refl r : ramSame r r.
Proof. destruct r; cbn; [unfold itemSame; auto|exact I]. Qed.
Definition neutral (tr e : list event) : Prop := active (tr ++ e) = active tr /\ floor (tr ++ e) = floor tr.

Lemma inv_soft s tr s' e :
  Inv s tr -> counts s' -> enabled s' = true -> nextm s' = nextm s -> nexti s <= nexti s' -> neutral tr e ->
  cnt isMut (thr s') = cnt isMut (thr s) -> (forall x, isMut x = true -> (In x (thr s') <-> In x (thr s))) ->
  ramSame (ram s) (ram s') ->
  (forall v, content s' = Some v -> v <= floor tr) ->
  (forall v, In (JIns v) (queue s') -> v <= floor tr) ->
  (match phase s' with PRead (Some v) | PGot v | PLocked v => v <= floor tr | _ => True end) ->
  (forall t v, In t (thr s') -> tokVer t = Some v -> v <= floor tr) ->
  (forall i v b, In (TEUnlink i v b) (thr s') -> In (TEUnlink i v b) (thr s)) ->
  (forall L, Q L s -> Qt L s -> Q L s') -> (forall L, Qt L s -> Qt L s') ->
  (forall t, In t (thr s) -> isMut t = true -> holdTomb t = true -> ~ locked s -> ~ locked s') ->
  (forall t n, In t (thr s) -> mutOf t = Some n -> TI s t -> match t with TCould _ => noIns (queue s') | _ => True end) ->
  (match phase s' with
   | PRead (Some v) | PGot v => ctxValid s' = true -> pend (tr ++ e) = false -> content s' = Some v
   | _ => True end) ->
  Inv s' (tr ++ e).
Proof.
  intros Iv Cn En Nm Ni (Na & Nf) Ct Mt Rs Bc Bi Bp Bt Un HQ HT HL HI Rd.
  assert (RI : forall i, ramIs s i -> ramIs s' i).
  { intros i (it & A & B & C). unfold ramSame in Rs. rewrite A in Rs. unfold ramIs. destruct (ram s') as [x|]; [|contradiction].
    destruct Rs as (R1 & R2 & R3 & R4). exists x. split; [reflexivity|]. split; congruence. }
  assert (FN : findRam s = None -> findRam s' = None).
  { intros F. apply findRam_none. intros it E. rewrite findRam_none in F. unfold ramSame in Rs. rewrite E in Rs.
    destruct (ram s) as [x|]; [|contradiction]. destruct Rs as (_ & _ & _ & R4). rewrite <- R4. apply F. reflexivity. }
  assert (WO : forall w, whoOk s w -> whoOk s' w).
  { intros [n i|n|n i|] W; cbn in *; auto. destruct W as (it & A & B & C & D). unfold ramSame in Rs. rewrite A in Rs.
    destruct (ram s') as [x|]; [|contradiction]. destruct Rs as (R1 & R2 & R3 & R4). exists x. repeat split; congruence. }
  constructor; rewrite ?Na, ?Nf; auto.
  - rewrite Nm. apply (i_nm _ _ Iv).
  - rewrite Ct. apply (i_act _ _ Iv).
  - intros t n I M. apply (i_actn _ _ Iv t n); [|exact M]. apply Mt; [|exact I]. unfold isMut. rewrite M. reflexivity.
  - intros n A. rewrite Nm. apply (i_last _ _ Iv n A).
  - intros it E. unfold ramSame in Rs. rewrite E in Rs. destruct (ram s) as [x|] eqn:X; [|contradiction].
    destruct Rs as (R1 & R2 & R3 & R4). destruct (i_ram _ _ Iv x X) as (A & B & C). rewrite <- R1, <- R2.
    split; [rewrite <- R4; exact A|]. split; [lia|]. destruct C as [C|(t & C1 & C2 & C3)]; [left; exact C|right].
    exists t. split; [apply Mt; assumption|]. split; assumption.
  - intros i v b I. destruct (i_unl _ _ Iv i v b (Un _ _ _ I)) as (A & B). split; [lia|].
    intros it E F. unfold ramSame in Rs. rewrite E in Rs. destruct (ram s) as [x|] eqn:X; [|contradiction].
    destruct Rs as (R1 & R2 & R3 & R4). rewrite <- R4. apply B; [reflexivity|congruence].
  - apply HQ; [apply (i_Q _ _ Iv)|apply (i_Qt _ _ Iv)].
  - apply HT. apply (i_Qt _ _ Iv).
  - intros it E F G W. unfold ramSame in Rs. rewrite E in Rs. destruct (ram s) as [x|] eqn:X; [|contradiction].
    destruct Rs as (R1 & R2 & R3 & R4).
    destruct (i_rQ _ _ Iv x X) as (A & B); [congruence|congruence| |].
    + intros t I P. apply (W t); [|rewrite <- R1; exact P]. apply Mt; [|exact I]. apply (isMut_pin _ _ (window_pin _ _ P)).
    + rewrite <- R2. split; [apply HQ; assumption|apply HT; assumption].
  - intros t I M. apply Mt in I; [|exact M]. pose proof (i_TI _ _ Iv t I M) as T.
    pose proof (HL t I M) as HLt. destruct (mutOf t) as [n|] eqn:MO; [|unfold isMut in M; rewrite MO in M; discriminate].
    pose proof (HI t n I MO T) as HIt.
    destruct t; cbn [TI holdTomb mutOf] in *; auto.
    + destruct w; cbn [whoOk0] in *; auto.
    + destruct w; cbn [whoOk0] in *; auto.
    + destruct T. split; auto.
    + destruct T as (T1 & T2 & T3). repeat split; auto.
    + destruct T as (T1 & T2 & T3 & T4). repeat split; auto.
    + destruct T as (T1 & T2 & T3). repeat split; auto.
    + destruct T as (T1 & T2). split; auto.
    + destruct T as (T1 & T2). split; [auto|]. intros k K. destruct (T2 k K). split; auto.
Qed.

(** Q is a function of the flash-side components. *)
Lemma Q_ext L s s' : content s' = content s \/ content s' = None -> queue s' = queue s -> phase s' = phase s ->
  (match phase s with PRead (Some _) | PGot _ => True | _ => False end -> ctxValid s' = true -> ctxValid s = true) -> Q L s -> Q L s'.
Proof.
  intros A B C D [E F G]. constructor; rewrite ?B, ?C.
  - intros v K. destruct A as [A|A]; [rewrite A in K; apply E; exact K|congruence].
  - exact F.
  - destruct (phase s) as [| |[v|]| v | v | |]; auto.
Qed.
Lemma snoc_split {A} (q : list A) (x y : A) l1 l2 : q ++ [x] = l1 ++ y :: l2 ->
  (exists l2', l2 = l2' ++ [x] /\ q = l1 ++ y :: l2') \/ (l2 = [] /\ x = y /\ q = l1).
Proof.
  intros H. destruct l2 as [|z l2] using rev_ind.
  - right. apply app_inj_tail in H. destruct H. auto.
  - left. clear IHl2. exists l2. rewrite app_comm_cons, app_assoc in H. apply app_inj_tail in H. destruct H as [H ->]. auto.
Qed.
