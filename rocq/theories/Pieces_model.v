(** * Piecewise caching: splitting an object into pieces.
    Models /repo/cachelib/common/piecewise/{RequestRange,GenericPieces,GenericPiecesBase}.{h,cpp}.
    uint64_t arithmetic wraps.  [None] = the process aborts (XCHECK) or divides by zero.
    Strings are lists of 8-bit characters. *)
From Verif Require Import Bytes.
From Coq Require Import Ascii String Decimal DecimalN.
Local Open Scope list_scope.

(** RequestRange.h:33 RangePair and range_. *)
Definition RangePair : Type := N * option N.
Definition RequestRange : Type := option RangePair.
(** RequestRange.cpp:24 *)
Definition mkRangeOf (r : option RangePair) : RequestRange := r.
(** RequestRange.cpp:26-37 *)
Definition mkRange (rangeStart rangeEnd : option N) : RequestRange :=
  match rangeStart with
  | None => None
  | Some s => match rangeEnd with
              | Some e => if (e <? s)%N then None else Some (s, rangeEnd)
              | None => Some (s, None)
              end
  end.

Definition sub64 (a b : N) : N := wrap64 (a + two64 - wrap64 b).
Definition add64 (a b : N) : N := wrap64 (a + b).
Definition mul64 (a b : N) : N := wrap64 (a * b).

(** GenericPiecesBase.h:158-169, GenericPieces.h:97-100 *)
Record pieces := mkPieces {
  pieceSize : N; numPiecesPerGroup : N; fullBodyLen : N; curFetching : N; numPiecesTotal : N;
  startPiece : N; endPiece : N }.

(** GenericPiecesBase.h:152-155 *)
Definition calculateNumPiecesTotal (len ps : N) : N := add64 (sub64 len 1 / ps) 1.

(** GenericPieces.cpp:36-52 resetFromRequestRange *)
Definition resetFromRequestRange (p : pieces) (r : RequestRange) : option pieces :=
  let '(s, e) :=
    match r with
    | None => (startPiece p, endPiece p)
    | Some (first, second) =>
        ((first / pieceSize p)%N,
         match second with
         | Some reqEnd => if (reqEnd <? fullBodyLen p)%N then (reqEnd / pieceSize p)%N else endPiece p
         | None => endPiece p
         end)
    end in
  if (s <=? e)%N then
    Some {| pieceSize := pieceSize p; numPiecesPerGroup := numPiecesPerGroup p;
            fullBodyLen := fullBodyLen p; curFetching := s; numPiecesTotal := numPiecesTotal p;
            startPiece := s; endPiece := e |}
  else None.

(** GenericPiecesBase.cpp:31-41 and GenericPieces.cpp:23-34: the constructors.  [range] is the
    possibly null pointer. *)
Definition construct (ps ppg len : N) (range : option RequestRange) : option pieces :=
  if (0 <? len)%N then
    if (ps =? 0)%N then None
    else
      let total := calculateNumPiecesTotal len ps in
      let p := {| pieceSize := ps; numPiecesPerGroup := ppg; fullBodyLen := len; curFetching := 0;
                  numPiecesTotal := total; startPiece := 0; endPiece := sub64 total 1 |} in
      match range with
      | Some r => resetFromRequestRange p r
      | None => Some p
      end
  else None.

(** GenericPieces.h:51-56 *)
Definition getTargetNumPieces (p : pieces) : N := add64 (sub64 (endPiece p) (startPiece p)) 1.
Definition getNumFetchedPieces (p : pieces) : N := sub64 (curFetching p) (startPiece p).
(** GenericPieces.h:58 updateFetchIndex; :67-69 setFetchIndex *)
Definition withCur (p : pieces) (c : N) : pieces :=
  {| pieceSize := pieceSize p; numPiecesPerGroup := numPiecesPerGroup p; fullBodyLen := fullBodyLen p;
     curFetching := c; numPiecesTotal := numPiecesTotal p; startPiece := startPiece p; endPiece := endPiece p |}.
Definition updateFetchIndex (p : pieces) : pieces := withCur p (add64 (curFetching p) 1).
Definition setFetchIndex (p : pieces) (i : N) : pieces := withCur p i.
(** GenericPiecesBase.h:91-93 *)
Definition morePiecesToFetch (p : pieces) : bool := (curFetching p <? endPiece p)%N.
(** GenericPiecesBase.h:95-97 *)
Definition getFirstByteOffsetOfCurPiece (p : pieces) : N := mul64 (curFetching p) (pieceSize p).
(** GenericPiecesBase.h:99-102 *)
Definition getLastByteOffsetOfLastPiece (p : pieces) : N :=
  N.min (sub64 (mul64 (add64 (endPiece p) 1) (pieceSize p)) 1) (sub64 (fullBodyLen p) 1).
(** GenericPiecesBase.h:104-111 *)
Definition getSizeOfAPiece (p : pieces) (i : N) : N :=
  if (i <? endPiece p)%N then pieceSize p
  else add64 (getLastByteOffsetOfLastPiece p mod pieceSize p) 1.
(** GenericPiecesBase.h:113-115 *)
Definition getFirstByteOffsetToFetch (p : pieces) : N := mul64 (startPiece p) (pieceSize p).
(** GenericPieces.h:71-76 *)
Definition getRemainingBytes (p : pieces) : N :=
  if (endPiece p <? curFetching p)%N then 0%N
  else add64 (sub64 (getLastByteOffsetOfLastPiece p) (getFirstByteOffsetOfCurPiece p)) 1.
(** GenericPieces.h:78-80 *)
Definition isPieceWithinBound (p : pieces) (i : N) : bool := (i <=? endPiece p)%N.
(** GenericPieces.h:83-86 *)
Definition getTotalSize (p : pieces) : N :=
  add64 (sub64 (getLastByteOffsetOfLastPiece p) (mul64 (startPiece p) (pieceSize p))) 1.

(** ** Cache keys *)
Definition str := list ascii.
Definition lit (s : string) : str := list_ascii_of_string s.
(** GenericPiecesBase.cpp:28-29 *)
Definition kCacheGroupSeparator : str := lit "|@|".
Definition kCachePieceSeparator : str := lit "|#|".
(** folly::to<std::string>(uint64_t): decimal digits without leading zeros. *)
Fixpoint decDigits (d : uint) : str :=
  match d with
  | Nil => []
  | D0 d => "0"%char :: decDigits d | D1 d => "1"%char :: decDigits d | D2 d => "2"%char :: decDigits d
  | D3 d => "3"%char :: decDigits d | D4 d => "4"%char :: decDigits d | D5 d => "5"%char :: decDigits d
  | D6 d => "6"%char :: decDigits d | D7 d => "7"%char :: decDigits d | D8 d => "8"%char :: decDigits d
  | D9 d => "9"%char :: decDigits d
  end.
Definition dec (n : N) : str := decDigits (N.to_uint n).

(** GenericPiecesBase.cpp:57-61 createPieceHeaderKey *)
Definition createPieceHeaderKey (base : str) (ver : N) : str :=
  base ++ kCachePieceSeparator ++ lit "header-" ++ dec ver.
(** GenericPiecesBase.cpp:63-85 createPieceKey *)
Definition createPieceKey (base : str) (num ppg ver : N) : str :=
  let group := if (0 <? ppg)%N then (num / ppg)%N else 0%N in
  if (group =? 0)%N then
    base ++ kCachePieceSeparator ++ lit "body-" ++ dec ver ++ lit "-" ++ dec num
  else
    base ++ kCacheGroupSeparator ++ dec group ++ kCachePieceSeparator ++ lit "body-" ++ dec ver ++ lit "-" ++ dec num.

Fixpoint isPrefix (p s : str) : bool :=
  match p, s with
  | [], _ => true
  | a :: p', b :: s' => Ascii.eqb a b && isPrefix p' s'
  | _ :: _, [] => false
  end.
(** folly::StringPiece::find: the first occurrence. *)
Fixpoint findSub (pat s : str) : option nat :=
  if isPrefix pat s then Some 0
  else match s with [] => None | _ :: s' => option_map S (findSub pat s') end.
(** GenericPiecesBase.cpp:87-97 getBaseKey *)
Definition getBaseKey (key : str) : str :=
  let found := match findSub kCacheGroupSeparator key with
               | Some i => Some i
               | None => findSub kCachePieceSeparator key
               end in
  match found with Some i => firstn i key | None => key end.

(** folly::split on a 3-character delimiter; [fuel] = length is enough. *)
Fixpoint split (fuel : nat) (pat s : str) : list str :=
  match fuel with
  | O => [s]
  | S f => match findSub pat s with
           | None => [s]
           | Some i => firstn i s :: split f pat (skipn (i + List.length pat) s)
           end
  end.
Fixpoint join (sep : str) (l : list str) : str :=
  match l with
  | [] => []
  | [x] => x
  | x :: r => x ++ sep ++ join sep r
  end.
(** GenericPiecesBase.cpp:43-55 escapeCacheKey *)
Definition escapeCacheKey (key : str) : str :=
  match split (List.length key) kCachePieceSeparator key with
  | [_] => key
  | parts => join (kCachePieceSeparator ++ kCachePieceSeparator) parts
  end.
