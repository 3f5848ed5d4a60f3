(** Invariants of the object cache. *)
From Coq Require Import List Arith ZArith Bool Lia.
Import ListNotations.
From Verif Require Import ObjCache_model ObjCache_spec.
Open Scope Z_scope.

Fixpoint sumf {A} (f : A -> Z) (l : list A) : Z := match l with [] => 0 | x :: l => f x + sumf f l end.
Lemma sumf_app {A} (f : A -> Z) a b : sumf f (a ++ b) = sumf f a + sumf f b.
Proof. induction a; cbn [sumf app]; lia. Qed.
Lemma sumf_nonneg {A} (f : A -> Z) l : (forall x, 0 <= f x) -> 0 <= sumf f l.
Proof. intro H. induction l as [|x l IH]; cbn [sumf]; [lia|]. specialize (H x). lia. Qed.
Lemma sumf_in {A} (f : A -> Z) l x : (forall x, 0 <= f x) -> In x l -> f x <= sumf f l.
Proof.
  intro H. induction l as [|y l IH]; cbn [sumf]; intro I; [destruct I|]. pose proof (sumf_nonneg f l H). pose proof (H y).
  destruct I as [->|I]; [lia|]. specialize (IH I). lia.
Qed.
Lemma takeAt_sum {A} (f : A -> Z) n l x r : takeAt n l = Some (x, r) -> sumf f l = f x + sumf f r.
Proof.
  revert n r. induction l as [|y l IH]; intros n r; (destruct n as [|n]; cbn [takeAt]); try (intro; discriminate).
  - intros [= -> ->]. reflexivity.
  - destruct (takeAt n l) as [[z t]|] eqn:E; [|intro; discriminate]. intro H. injection H as H1 H2. subst. cbn [sumf]. rewrite (IH n t E). lia.
Qed.
Lemma takeAt_in {A} n (l : list A) x r : takeAt n l = Some (x, r) -> In x l.
Proof.
  revert n r. induction l as [|y l IH]; intros n r; (destruct n as [|n]; cbn [takeAt]); try (intro; discriminate).
  - intros [= -> ->]. left. reflexivity.
  - destruct (takeAt n l) as [[z t]|] eqn:E; [|intro; discriminate]. intro H. injection H as H1 H2. subst. right. exact (IH n t E).
Qed.
Lemma nth_upd {A} (l : list A) i x y j : nth_error l i = Some x -> nth_error (upd l i y) j = if (j =? i)%nat then Some y else nth_error l j.
Proof.
  revert i j. induction l as [|z l IH]; intros [|i] [|j]; cbn; try discriminate; try reflexivity. intro H. rewrite (IH i j H). reflexivity.
Qed.
Lemma sumf_upd {A} (f : A -> Z) l i x y : nth_error l i = Some x -> sumf f (upd l i y) = sumf f l - f x + f y.
Proof.
  revert i. induction l as [|z l IH]; intros [|i]; cbn [nth_error upd sumf]; try discriminate.
  - intros [= ->]. lia.
  - intro H. rewrite (IH i H). lia.
Qed.
Lemma nth_snoc {A} (l : list A) x j : nth_error (l ++ [x]) j = if (j =? length l)%nat then Some x else nth_error l j.
Proof.
  destruct (Nat.eqb_spec j (length l)) as [->|D].
  - rewrite nth_error_app2, Nat.sub_diag by lia. reflexivity.
  - destruct (Nat.lt_ge_cases j (length l)) as [L|L]; [apply nth_error_app1; exact L|].
    rewrite nth_error_app2 by exact L. rewrite (proj2 (nth_error_None l j)) by lia. destruct (j - length l)%nat eqn:E; [lia|]. destruct n; reflexivity.
Qed.
Lemma sumf_nth {A} (f : A -> Z) l i x : (forall x, 0 <= f x) -> nth_error l i = Some x -> f x <= sumf f l.
Proof. intros H N. apply sumf_in; [exact H|]. exact (nth_error_In l i N). Qed.

Definition e01 (a b : nat) : Z := if (a =? b)%nat then 1 else 0.
Definition ptrHas (j : nat) (p : ptr) : Z := match p with PItem i _ => e01 i j | PObj _ => 0 end.
Definition opHas (j : nat) (o : op) : Z :=
  match o with
  | OCall _ i | OIns i _ | ORel i | OUpd i _ _ | ONvm i => e01 i j
  | OIns2 i old => e01 i j + match old with Some i2 => e01 i2 j | None => 0 end
  | ODest _ _ | OCb _ => 0
  end.
Definition opNas (j : nat) (o : op) : Z := match o with OCall r i => if r then e01 i j else 2 * e01 i j | _ => 0 end.
Definition opKill (j : nat) (o : op) : Z := match o with ODest i _ => e01 i j | _ => 0 end.
Definition opCb (j : nat) (o : op) : Z := match o with OCb i => e01 i j | _ => 0 end.

Definition phaseOk (it : item) (r n k b : Z) : Prop :=
  irefs it = r /\
  match iph it with
  | PNas => (n = 1 \/ n = 2) /\ k = 0 /\ b = 0 /\ iin it = false /\ r = 1
  | PAdd => n = 1 /\ k = 0 /\ b = 0 /\ iin it = false /\ r = 1
  | PLive => n = 0 /\ k = 0 /\ b = 0 /\ (iin it = false -> 0 < r)
  | PDying => n = 0 /\ k = 1 /\ b = 0 /\ iin it = false /\ r = 0
  | PSub => n = 0 /\ k = 0 /\ b = 1 /\ iin it = false /\ r = 0
  | PDead => n = 0 /\ k = 0 /\ b = 0 /\ iin it = false /\ r = 0
  end.
Definition goodAt (o : option item) (r n k b : Z) : Prop :=
  match o with Some it => phaseOk it r n k b | None => r = 0 /\ n = 0 /\ k = 0 /\ b = 0 end.
Definition good (its : list item) (ps : list ptr) (os : list op) (j : nat) : Prop :=
  goodAt (nth_error its j) (sumf (ptrHas j) ps + sumf (opHas j) os) (sumf (opNas j) os) (sumf (opKill j) os) (sumf (opCb j) os).

(** owners of an object *)
Definition ptrOwn (o : nat) (p : ptr) : Z := match p with PObj q => e01 q o | _ => 0 end.
Definition itOwn (o : nat) (it : item) : Z := match iph it with PDead => 0 | _ => e01 (iobj it) o end.
Definition own (s : state) (o : nat) : Z := sumf (fun q => e01 q o) (gone s) + sumf (ptrOwn o) (ptrs s) + sumf (itOwn o) (items s).

(** sizes *)
Definition itSz (it : item) : Z := match iph it with PAdd | PLive | PDying => isz it | _ => 0 end.
Definition opSz (o : op) : Z := match o with OIns _ z => - z | OUpd _ _ d => - d | _ => 0 end.
Definition inKey (k : nat) (it : item) : Z := if iin it && (ikey it =? k)%nat then 1 else 0.

Record inv (c : conf) (s : state) : Prop := mkInv {
  vG : forall j, good (items s) (ptrs s) (ops s) j;
  vO : forall o, own s o <= (if (o <? nobj s)%nat then 1 else 0) /\ (leaky c = false -> own s o = (if (o <? nobj s)%nat then 1 else 0));
  vC : nvm c = false -> forall i it, nth_error (items s) i = Some it -> iclean it = false;
  vT : 0 <= tot s < W /\ forall i it, nth_error (items s) i = Some it -> 0 <= isz it < W;
  vS : tracking c = true -> ovf c = false -> leaky c = false -> exists k, tot s = sumf itSz (items s) + sumf opSz (ops s) + k * W;
  vU : forall k, sumf (inKey k) (items s) <= 1
}.

Lemma some_inj {A} (x y : A) : Some x = Some y -> x = y.
Proof. intro H. injection H. auto. Qed.
Lemma e01_nn a b : 0 <= e01 a b.
Proof. unfold e01. destruct (a =? b)%nat; lia. Qed.
Lemma ptrHas_nn j p : 0 <= ptrHas j p.
Proof. destruct p; cbn; [apply e01_nn|lia]. Qed.
Lemma opHas_nn j p : 0 <= opHas j p.
Proof. destruct p as [r i|i z|i [o|]|i|i k d|i|i e|i]; cbn; try apply e01_nn; try lia; pose proof (e01_nn i j); try pose proof (e01_nn o j); lia. Qed.
Lemma opNas_nn j p : 0 <= opNas j p.
Proof. destruct p as [r i| | | | | | |]; cbn [opNas]; try lia. pose proof (e01_nn i j). destruct r; lia. Qed.
Lemma opKill_nn j p : 0 <= opKill j p.
Proof. destruct p; cbn; try apply e01_nn; lia. Qed.
Lemma opCb_nn j p : 0 <= opCb j p.
Proof. destruct p; cbn; try apply e01_nn; lia. Qed.
Lemma ptrOwn_nn j p : 0 <= ptrOwn j p.
Proof. destruct p; cbn; try apply e01_nn; lia. Qed.
Lemma itOwn_nn j p : 0 <= itOwn j p.
Proof. unfold itOwn. destruct (iph p); try apply e01_nn; lia. Qed.
Lemma inKey_nn j p : 0 <= inKey j p.
Proof. unfold inKey. destruct (_ && _); lia. Qed.
Lemma wr_ex x : exists k, wr x = x + k * W.
Proof. exists (- (x / W)). unfold wr. pose proof (Z.div_mod x W ltac:(unfold W; lia)). lia. Qed.
Lemma wr_rng x : 0 <= wr x < W.
Proof. apply Z.mod_pos_bound. unfold W. lia. Qed.

Lemma lookup_some k l i : lookup k l = Some i -> exists it, nth_error l i = Some it /\ iin it = true /\ ikey it = k.
Proof.
  revert i. induction l as [|it l IH]; intro i; cbn [lookup]; [discriminate|].
  destruct (iin it && (ikey it =? k)%nat) eqn:E.
  - intros [= <-]. apply andb_prop in E. destruct E as [E1 E2]. apply Nat.eqb_eq in E2. exists it. auto.
  - destruct (lookup k l) as [j|]; cbn [option_map]; [|discriminate]. intros [= <-]. cbn [nth_error]. apply IH. reflexivity.
Qed.
Lemma lookup_none k l : lookup k l = None -> sumf (inKey k) l = 0.
Proof.
  induction l as [|it l IH]; cbn [lookup sumf]; [reflexivity|]. unfold inKey at 1.
  destruct (iin it && (ikey it =? k)%nat) eqn:E; [discriminate|].
  destruct (lookup k l); cbn [option_map]; [discriminate|]. intros _. rewrite IH by reflexivity. lia.
Qed.

Lemma inv_init c : inv c init.
Proof.
  constructor; cbn.
  - intro j. unfold good. destruct j; cbn; auto.
  - intro o. split; [|intros _]; destruct (o <? 0)%nat eqn:E; try lia; apply Nat.ltb_lt in E; lia.
  - intros _ [|i]; discriminate.
  - unfold W. split; [lia|]. intros [|i]; discriminate.
  - intros _ _ _. exists 0. lia.
  - intro k. lia.
Qed.
