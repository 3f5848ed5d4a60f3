(** * Driver: admission accounting of asynchronous flash inserts.
    Models /repo/cachelib/navy/driver/Driver.cpp:135-216 (admissionTest, insertAsync).
    parcelMemory_ and concurrentInserts_ are 64-bit atomic counters; every atomic operation is one
    step, and the steps of any number of calls and completions interleave arbitrarily.  Not
    modelled: the rejection statistics; the admission policy is an arbitrary boolean. *)
From Coq Require Import List NArith Bool Lia.
Import ListNotations.
Local Open Scope N_scope.

Definition W : N := 2 ^ 64.
(** AtomicCounter::add_fetch / sub / dec (common/AtomicCounter.h): uint64_t arithmetic. *)
Definition add_fetch (c d : N) : N := (c + d) mod W.
Definition sub (c d : N) : N := (c + (W - d mod W)) mod W.

(** Where an insertAsync call is. *)
Inductive pc :=
| Added (m : N)          (* Driver.cpp:142 done: parcelMemory_.add_fetch returned m *)
| Tested (m c : N)       (* :143 done: concurrentInserts_.add_fetch(1) returned c *)
| Outstanding (m c : N)  (* admitted and scheduled (:203-214); callback not run yet *)
| Reverting              (* rejected: :176 concurrentInserts_.dec() done *)
| Rejected               (* Status::Rejected returned *)
| Releasing              (* callback: :212 parcelMemory_.sub done *)
| Completed.             (* callback: :213 concurrentInserts_.dec() done *)
Record call := mkCall { size : N; at_ : pc }.

Record cfg := mkCfg { maxParcelMemory : N; maxConcurrentInserts : N; maxKeySize : N }.
Record st := mkSt { parcelMemory : N; concurrentInserts : N; calls : list call }.
Definition init : st := mkSt 0 0 [].

(** Driver.cpp:146-151: the admission decision on the observed counter values. *)
Definition admit (g : cfg) (policy : bool) (m c : N) : bool :=
  policy && (c <=? maxConcurrentInserts g) && (m <=? maxParcelMemory g).

Definition total_size (l : list call) : N := fold_right (fun c a => size c + a) 0 l.
Definition live (c : call) : bool := match at_ c with Rejected | Completed => false | _ => true end.

Inductive step (g : cfg) : st -> st -> Prop :=
(** :188-200 key too long: rejected before any reservation. *)
| s_bigkey pm ci l ks vs : maxKeySize g < ks ->
    step g (mkSt pm ci l) (mkSt pm ci (l ++ [mkCall (ks + vs) Rejected]))
(** :141-142.  The parcels of the calls in progress are in memory at the same time, so their
    sizes, and their number, fit in 64 bits. *)
| s_add pm ci l ks vs : ks <= maxKeySize g ->
    total_size (filter live l) + (ks + vs) < W -> N.of_nat (length (filter live l)) + 1 < W ->
    let m := add_fetch pm (ks + vs) in
    step g (mkSt pm ci l) (mkSt m ci (l ++ [mkCall (ks + vs) (Added m)]))
(** :143 *)
| s_test pm ci l1 z m l2 :
    let c := add_fetch ci 1 in
    step g (mkSt pm ci (l1 ++ mkCall z (Added m) :: l2)) (mkSt pm c (l1 ++ mkCall z (Tested m c) :: l2))
(** :146-151 admitted, :203 scheduled *)
| s_admit pm ci l1 z m c l2 policy : admit g policy m c = true ->
    step g (mkSt pm ci (l1 ++ mkCall z (Tested m c) :: l2)) (mkSt pm ci (l1 ++ mkCall z (Outstanding m c) :: l2))
(** :176, :177 *)
| s_reject1 pm ci l1 z m c l2 policy : admit g policy m c = false ->
    step g (mkSt pm ci (l1 ++ mkCall z (Tested m c) :: l2)) (mkSt pm (sub ci 1) (l1 ++ mkCall z Reverting :: l2))
| s_reject2 pm ci l1 z l2 :
    step g (mkSt pm ci (l1 ++ mkCall z Reverting :: l2)) (mkSt (sub pm z) ci (l1 ++ mkCall z Rejected :: l2))
(** the insert job's callback, run once by the scheduler: :212, :213 *)
| s_complete1 pm ci l1 z m c l2 :
    step g (mkSt pm ci (l1 ++ mkCall z (Outstanding m c) :: l2)) (mkSt (sub pm z) ci (l1 ++ mkCall z Releasing :: l2))
| s_complete2 pm ci l1 z l2 :
    step g (mkSt pm ci (l1 ++ mkCall z Releasing :: l2)) (mkSt pm (sub ci 1) (l1 ++ mkCall z Completed :: l2)).

Inductive reach (g : cfg) : st -> Prop :=
| r_init : reach g init
| r_step s s' : reach g s -> step g s s' -> reach g s'.
