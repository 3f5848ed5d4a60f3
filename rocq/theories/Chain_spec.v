(** Specification for C15: which chains there are. *)
From Verif Require Import Bytes DList_model DList_spec Chain_model.

Inductive status :=
| Free
| Parent (kids : list node) (held : nat) (vis : bool)   (* a regular item: chain, latest first; handles; in the cache *)
| Loose (par : node) (held : nat)                       (* a chained item, in no chain, with handles *)
| Linked (par : node).                                  (* a chained item, in the chain of [par] *)
Record world := mkW { who : node -> status; evs : list event }.
Definition set (q : world) (n : node) (st : status) : world := mkW (updf (who q) n st) (evs q).
Definition told (q : world) (es : list event) : world := mkW (who q) (rev es ++ evs q).
Definition memb (n : node) (l : list node) : bool := existsb (Nat.eqb n) l.
Definition sets (q : world) (l : list node) (st : status) : world :=
  mkW (fun x => if memb x l then st else who q x) (evs q).
(** Memory is freed, except that [r] is handed over. *)
Definition freed (r : ptr) (n : node) : event :=
  match r with Some x => if n =? x then ERecycle n else EFree n | None => EFree n end.
(** A regular item dies: its callback sees the chain, then the chain and the item are freed. *)
Definition gone (q : world) (p : node) (k : list node) (nascent : bool) (r : ptr) : world :=
  told (sets q (p :: k) Free) ((if nascent then [] else [ECb p k]) ++ map (freed r) k ++ [freed r p]).
Definition drop (q : world) (n : node) (nascent : bool) : world :=
  match who q n with
  | Parent k 1 false => gone q n k nascent None
  | Parent k (S h) v => set q n (Parent k h v)
  | Loose p 1 => told (set q n Free) [EFree n]
  | Loose p (S h) => set q n (Loose p h)
  | _ => q
  end.
(** The item whose life [r] depends on, if [r] can be an eviction candidate. *)
Definition owner (q : world) (r : node) : node := match who q r with Linked p => p | _ => r end.

Definition spec_exec (q : world) (c : call) : world * out :=
  match c with
  | AllocParent n => (told (set q n (Parent [] 1 false)) [EAlloc n], OItem n)
  | AllocChild p n => (told (set q n (Loose p 1)) [EAlloc n], OItem n)
  | Insert p => match who q p with Parent k h _ => (set q p (Parent k h true), OOk) | _ => (q, OOk) end
  | Unlink p => match who q p with Parent k h _ => (set q p (Parent k h false), OOk) | _ => (q, OOk) end
  | Hold n => match who q n with
              | Parent k h v => (set q n (Parent k (S h) v), OOk)
              | Loose p h => (set q n (Loose p (S h)), OOk)
              | _ => (q, OOk)
              end
  | Drop n nas => (drop q n nas, OOk)
  | Add p c => match who q p with
               | Parent k h v => (set (set q p (Parent (c :: k) h v)) c (Linked p), OOk)
               | _ => (q, OOk)
               end
  | Pop p => match who q p with
             | Parent (c :: k) h v => (set (set q p (Parent k h v)) c (Loose p 1), OItem c)
             | _ => (q, OThrow)
             end
  | Transfer p p2 =>
    match who q p, who q p2 with
    | Parent k h v, Parent [] h2 v2 =>
      (sets (set (set q p (Parent [] h false)) p2 (Parent k h2 v)) k (Linked p2), OOk)
    | _, _ => (q, OThrow)
    end
  | Replace o n p =>
    match who q p, who q o, who q n with
    | Parent k h v, Linked a, Loose b _ =>
      if (a =? p) && (b =? p) then
        (set (set (set q p (Parent (replace_node k o n) h v)) o (Loose p 1)) n (Linked p), OItem o)
      else (drop q n false, OThrow)
    | _, _, _ => (drop q n false, OThrow)
    end
  | View p => (q, OChain (match who q p with Parent k _ _ => k | _ => [] end))
  | Evict r => match who q (owner q r) with
               | Parent k 0 true => (gone q (owner q r) k false (Some r), OBool true)
               | _ => (q, OBool false)
               end
  | EvictSlab r => match who q (owner q r) with
                   | Parent k 0 true => (gone q (owner q r) k false None, OBool true)
                   | _ => (q, OBool false)
                   end
  | MoveChained o n =>
    match who q (owner q o) with
    | Parent k 0 true =>
      (told (set (set (set q (owner q o) (Parent (replace_node k o n) 0 true)) o Free) n (Linked (owner q o))) [EAlloc n; EFree o],
       OBool true)
    | _ => (q, OBool false)
    end
  | MoveRegular p p2 raced =>
    match who q p with
    | Parent k 0 true =>
      if raced then
        (* the moved chain dies without a callback, the item with a callback that sees no chain *)
        (told (sets q (p :: k) Free) (EAlloc p2 :: map EFree k ++ [EFree p2; ECb p []; EFree p]), OBool false)
      else (told (sets (set (set q p Free) p2 (Parent k 0 true)) k (Linked p2)) [EAlloc p2; EFree p], OBool true)
    | _ => (q, OBool false)
    end
  end.

(** What the API requires: handles for what is passed in, fresh memory for an allocation, and for a
    chained item that it was allocated for that parent and is in no chain. *)
Definition legal (m : nat) (q : world) (c : call) : Prop :=
  match c with
  | AllocParent n => who q n = Free /\ n < m
  | AllocChild p n => who q n = Free /\ n < m /\ exists k h v, who q p = Parent k (S h) v
  | Insert p | Unlink p => exists k h v, who q p = Parent k (S h) v
  | Hold n | Drop n _ => (exists k h v, who q n = Parent k (S h) v) \/ (exists p h, who q n = Loose p (S h)) \/
                         (match c with Hold _ => exists k h, who q n = Parent k h true | _ => False end)
  | Add p c => who q c = Loose p 1 /\ exists k h v, who q p = Parent k (S h) v
  | Pop p | View p => exists k h v, who q p = Parent k (S h) v
  | Transfer p p2 => p <> p2 /\ (exists c k h v, who q p = Parent (c :: k) (S h) v) /\ exists k h, who q p2 = Parent k (S h) false
  | Replace o n p => who q o <> Free /\ (exists k h v, who q p = Parent k (S h) v) /\
                     ((exists b, who q n = Loose b 1) \/ (exists k h v, who q n = Parent k (S h) v))
  | Evict r | EvictSlab r => (exists p, who q r = Linked p) \/ exists k h, who q r = Parent k h true
  | MoveChained o n => (exists p, who q o = Linked p) /\ who q n = Free /\ n < m
  | MoveRegular p p2 _ => (exists k h, who q p = Parent k h true) /\ who q p2 = Free /\ p2 < m
  end.
Fixpoint legals (m : nat) (q : world) (cs : list call) : Prop :=
  match cs with [] => True | c :: r => legal m q c /\ legals m (fst (spec_exec q c)) r end.
Fixpoint spec_execs (q : world) (cs : list call) : world * list out :=
  match cs with
  | [] => (q, [])
  | c :: r => let (q1, o) := spec_exec q c in let (q2, os) := spec_execs q1 r in (q2, o :: os)
  end.
Definition init_w : world := mkW (fun _ => Free) [].

(** The cache is in the state [q]. *)
Definition shows (s : cache) (q : world) : Prop :=
  log s = evs q /\
  forall n, match who q n with
            | Free => live s n = false
            | Parent k h v => live s n = true /\ ischained (it s n) = false /\ viewChain s n = Some k /\ NoDup k /\
                refs (it s n) = h /\ acc (it s n) = v /\ inmm (it s n) = v /\ (h <> 0 \/ v = true) /\
                (forall c, In c k <-> who q c = Linked n)
            | Loose p h => live s n = true /\ ischained (it s n) = true /\ refs (it s n) = h /\ h <> 0
            | Linked p => live s n = true /\ ischained (it s n) = true /\ parent (it s n) = p /\ refs (it s n) = 1 /\
                exists k h v, who q p = Parent k h v
            end.
Definition reached (m : nat) (cs : list call) (s : cache) (outs : list out) : Prop :=
  legals m init_w cs /\ execs (init m) cs = Some (s, outs).
(** What the events say about the memory [n]: [Some true] allocated, [Some false] not; [None] if it was
    allocated while in use, released while not in use, or seen by a callback while not in use.
    Events newest first. *)
Definition feel (n : node) (e : event) (b : option bool) : option bool :=
  match e, b with
  | _, None => None
  | EAlloc x, Some l => if x =? n then (if l then None else Some true) else b
  | (EFree x | ERecycle x), Some l => if x =? n then (if l then Some false else None) else b
  | ECb x ch, Some l => if memb n (x :: ch) && negb l then None else b
  end.
Definition lifelog (n : node) (es : list event) : option bool := fold_right (feel n) (Some false) es.
