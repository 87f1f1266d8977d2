(** * BwosModel: the block-based work-stealing queue of static_thread_pool.

    Models include/exec/detail/bwos_lifo_queue.hpp L206-647 (class lifo_queue and block_type) for one
    owner thread (push_back of one task or of a range, pop_back) and any number of thief threads
    (steal_front), any number of blocks and any block size, with one transition per access of a
    variable that the other side also accesses.  head_ is accessed by the owner only; tail_,
    start_block_, last_block_ and the ring buffer are written by the owner only; so the owner's reads of
    these are merged with the next write.

    Simplifications: sequential consistency (the code uses relaxed/acquire/release orders, which are
    not modelled); a 64-bit word (round << 32 | index) is a pair, which is exact as long as block_size
    and the number of blocks are below 2^32; rounds are counted modulo 2^32 as in the code; the number
    of blocks is a power of two in the code (std::bit_ceil), here (i + 1) & mask is (i + 1) mod nb for
    any nb > 0; a task is a number, the null result is None. *)

From Coq Require Import List Arith Bool NArith.
From Verif Require Import Conc.
Import ListNotations.
Set Implicit Arguments.

Definition tid := nat.
Definition task := nat.

(** rounds, std::uint32_t arithmetic *)
Definition M : N := (2 ^ 32)%N.
Definition add1 (r : N) : N := ((r + 1) mod M)%N.
Definition sub1 (r : N) : N := ((r + (M - 1)) mod M)%N.
Definition word := (N * nat)%type.                    (* (round, index) *)
Definition word_eqb (a b : word) : bool := (fst a =? fst b)%N && (snd a =? snd b).
Definition word_ltb (a b : word) : bool := (fst a <? fst b)%N || ((fst a =? fst b)%N && (snd a <? snd b)).

(** block_type, L122-176 *)
Record blk := { head : word; tail : nat; scount : nat; stail : word; ring : nat -> task }.

Section Params.
Variable nb : nat.   (* number of blocks *)
Variable bs : nat.   (* block size *)

(** L316-325 *)
Definition next_ix (i : nat) : nat := if S i =? nb then 0 else S i.
Definition increase (c : word) : word :=
  let n := next_ix (snd c) in ((if n =? 0 then add1 (fst c) else fst c), n).
(** L327-337 *)
Definition prev_ix (i : nat) : nat := if i =? 0 then nb - 1 else i - 1.
Definition decrease (c : word) : word := ((if snd c =? 0 then sub1 (fst c) else fst c), prev_ix (snd c)).

(** L406-413 *)
Definition new_blk (rg : nat -> task) : blk :=
  {| head := ((M - 1)%N, bs); tail := bs; scount := bs; stail := ((M - 1)%N, bs); ring := rg |}.

(** program counters of the owner *)
Inductive opc :=
| OIdle
| PW (bulk : bool) (rest w : list task)   (* put L476-487 / bulk_put L491-505: w written, not yet published *)
| PA (bulk : bool) (rest : list task)     (* advance_put_index L363-380 *)
| PS (bulk : bool) (rest : list task)     (* L381-387 *)
| PG1 (bulk : bool) (rest : list task)    (* grant: L643 *)
| PG2 (bulk : bool) (rest : list task) (block_end : word)  (* L644-646 *)
| PR1 (bulk : bool) (rest : list task)    (* reclaim: L614-621 *)
| PR2 (bulk : bool) (rest : list task)    (* L624-625 *)
| PR3 (bulk : bool) (rest : list task)    (* L626 *)
| PR4 (bulk : bool) (rest : list task)    (* L627 *)
| PL (bulk : bool) (rest : list task)     (* L392 *)
| GG                                      (* pop_back: get L508-527 / advance_get_index L344-353 *)
| GR1                                     (* reduce_round: L575 *)
| GR2 (v : word)                          (* L579 *)
| GT                                      (* takeover L583-591 *)
| GL.                                     (* L357 *)

(** program counters of a thief *)
Inductive tpc :=
| TIdle
| TL (thief : word)                        (* steal: L533 *)
| TT (thief : word) (spos : word)          (* L548 *)
| TC (thief : word) (spos : word)          (* L556 *)
| TR (i sidx : nat)                        (* L563; block index and position claimed *)
| TN (i : nat) (v : task)                  (* L565 *)
| TA (thief : word).                       (* advance_steal_index L397-401 *)

Inductive event :=
| EPushCall (vs : list task)               (* push_back called *)
| EPush (v : task)                         (* v is in the queue *)
| EPushRet (rest : list task)              (* push_back returns; rest was not accepted *)
| EPop (v : option task)                   (* pop_back returns *)
| EClaim (t : tid) (v : task)              (* thief t takes v out of the queue *)
| ESteal (t : tid) (v : option task).      (* steal_front of thief t returns *)

Record state := {
  blks : nat -> blk;
  start : word;                            (* start_block_ *)
  last : word;                             (* last_block_ *)
  own : word;                              (* the owner's local variable [owner] *)
  opc_ : opc;
  thr : list tpc;
  log : list event }.                      (* ghost, newest first *)

Definition w_blks s v := {| blks := v; start := start s; last := last s; own := own s; opc_ := opc_ s; thr := thr s; log := log s |}.
Definition w_start s v := {| blks := blks s; start := v; last := last s; own := own s; opc_ := opc_ s; thr := thr s; log := log s |}.
Definition w_last s v := {| blks := blks s; start := start s; last := v; own := own s; opc_ := opc_ s; thr := thr s; log := log s |}.
Definition w_own s v := {| blks := blks s; start := start s; last := last s; own := v; opc_ := opc_ s; thr := thr s; log := log s |}.
Definition w_opc s v := {| blks := blks s; start := start s; last := last s; own := own s; opc_ := v; thr := thr s; log := log s |}.
Definition w_thr s t p := {| blks := blks s; start := start s; last := last s; own := own s; opc_ := opc_ s; thr := upd (thr s) t p; log := log s |}.
Definition w_log s l := {| blks := blks s; start := start s; last := last s; own := own s; opc_ := opc_ s; thr := thr s; log := l ++ log s |}.

Definition b_head (b : blk) v := {| head := v; tail := tail b; scount := scount b; stail := stail b; ring := ring b |}.
Definition b_tail (b : blk) v := {| head := head b; tail := v; scount := scount b; stail := stail b; ring := ring b |}.
Definition b_scount (b : blk) v := {| head := head b; tail := tail b; scount := v; stail := stail b; ring := ring b |}.
Definition b_stail (b : blk) v := {| head := head b; tail := tail b; scount := scount b; stail := v; ring := ring b |}.
Definition b_ring (b : blk) i v := {| head := head b; tail := tail b; scount := scount b; stail := stail b; ring := fset (ring b) i v |}.
Definition w_blk s i f := w_blks s (fset (blks s) i (f (blks s i))).

(** L206-216; the ring buffers hold unspecified values *)
Definition init (rg : nat -> nat -> task) (k : nat) : state :=
  let b0 := new_blk (rg 0) in
  {| blks := fset (fun i => new_blk (rg i)) 0
       {| head := (0%N, 0); tail := 0; scount := 0; stail := (0%N, bs); ring := ring b0 |};
     start := (0%N, 0); last := (0%N, 0); own := (0%N, 0); opc_ := OIdle; thr := repeat TIdle k; log := [] |}.

Inductive oaction := OPush (v : task) | OBulk (vs : list task) | OPop | OGo.

(** the next value of [owner] in advance_put_index, L365-374 *)
Definition next_owner (s : state) : word := increase (own s).

Definition ostep (a : oaction) (s : state) : option state :=
  let i := snd (own s) in
  let b := blks s i in
  match a, opc_ s with
  | OPush v, OIdle => Some (w_log (w_opc (w_own s (last s)) (PW false [v] [])) [EPushCall [v]])      (* L273 *)
  | OBulk vs, OIdle => Some (w_log (w_opc (w_own s (last s)) (PW true vs [])) [EPushCall vs])        (* L293 *)
  | OPop, OIdle => Some (w_opc (w_own s (last s)) GG)                                                (* L221 *)
  | OGo, PW bulk rest w =>
      match rest with
      | v :: rest' =>
          if (tail b + length w <? bs) && (bulk || (length w =? 0))
          then Some (w_opc (w_blk s i (fun b => b_ring b (tail b + length w) v)) (PW bulk rest' (w ++ [v])))   (* L482, L498 *)
          else if bulk then Some (w_log (w_opc (w_blk s i (fun b => b_tail b (tail b + length w))) (PA bulk rest)) (rev (map EPush w)))  (* L503 *)
          else Some (w_opc s (PA bulk rest))                                                         (* L486 *)
      | [] =>
          Some (w_log (w_opc (w_blk s i (fun b => b_tail b (tail b + length w))) OIdle) (EPushRet [] :: rev (map EPush w)))   (* L483, L503 *)
      end
  | OGo, PA bulk rest =>
      if next_ix i =? i then Some (w_log (w_opc s OIdle) [EPushRet rest])                            (* L367-371 *)
      else if word_eqb (stail (blks s (next_ix i))) (sub1 (fst (next_owner s)), bs)                  (* L376, L601-604 *)
      then Some (w_opc s (PS bulk rest))
      else Some (w_log (w_opc s OIdle) [EPushRet rest])                                              (* L379 *)
  | OGo, PS bulk rest =>
      Some (w_opc (if next_ix i =? snd (start s) then w_start s (increase (start s)) else s) (PG1 bulk rest))
  | OGo, PG1 bulk rest => Some (w_opc s (PG2 bulk rest (stail b)))
  | OGo, PG2 bulk rest e =>
      Some (w_opc (w_own (w_blk s i (fun b => b_stail (b_head b e) (head b))) (next_owner s)) (PR1 bulk rest))
  | OGo, PR1 bulk rest =>
      if scount b =? snd (head b) then Some (w_opc s (PR2 bulk rest)) else Some s                    (* L618-621 *)
  | OGo, PR2 bulk rest => Some (w_opc (w_blk s i (fun b => b_tail (b_head b (fst (own s), 0)) 0)) (PR3 bulk rest))
  | OGo, PR3 bulk rest => Some (w_opc (w_blk s i (fun b => b_stail b (fst (own s), bs))) (PR4 bulk rest))
  | OGo, PR4 bulk rest => Some (w_opc (w_blk s i (fun b => b_scount b 0)) (PL bulk rest))
  | OGo, PL bulk rest => Some (w_opc (w_last s (own s)) (PW bulk rest []))
  | OGo, GG =>
      if (tail b =? 0) || (snd (head b) =? tail b) then                                              (* L512-523 *)
        if word_eqb (start s) (own s) then Some (w_log (w_opc s OIdle) [EPop None])                  (* L345-349, L239 *)
        else Some (w_opc s GR1)
      else Some (w_log (w_opc (w_blk s i (fun b => b_tail b (tail b - 1))) OIdle) [EPop (Some (ring b (tail b - 1)))])   (* L524-526 *)
  | OGo, GR1 => Some (w_opc s (GR2 (stail b)))
  | OGo, GR2 v =>
      Some (w_opc (w_own (w_blk s i (fun b => b_stail b (sub1 (fst v), snd v))) (decrease (own s))) GT)
  | OGo, GT => Some (w_opc (w_blk s i (fun b => b_head (b_stail b (head b)) (stail b))) GL)
  | OGo, GL => Some (w_opc (w_last s (own s)) GG)
  | _, _ => None
  end.

Inductive taction := TSteal | TGo.
Definition tstep (t : tid) (a : taction) (s : state) : option state :=
  match nth_error (thr s) t with
  | None => None
  | Some p =>
    match a, p with
    | TSteal, TIdle => Some (w_thr s t (TL (start s)))                                               (* L245 *)
    | TGo, TL th =>
        let sp := stail (blks s (snd th)) in
        if snd sp =? bs then                                                                         (* L537 *)
          if (fst th =? fst sp)%N then Some (w_thr s t (TA th))                                      (* done *)
          else Some (w_log (w_thr s t TIdle) [ESteal t None])                                        (* empty *)
        else Some (w_thr s t (TT th sp))
    | TGo, TT th sp =>
        if snd sp =? tail (blks s (snd th)) then Some (w_log (w_thr s t TIdle) [ESteal t None])      (* L549-553 *)
        else Some (w_thr s t (TC th sp))
    | TGo, TC th sp =>
        let i := snd th in
        if word_eqb (stail (blks s i)) sp then
          Some (w_log (w_thr (w_blk s i (fun b => b_stail b (fst sp, S (snd sp)))) t (TR i (snd sp))) [EClaim t (ring (blks s i) (snd sp))])
        else Some (w_thr s t (TL th))                                                                (* conflict, L263 *)
    | TGo, TR i x => Some (w_thr s t (TN i (ring (blks s i) x)))
    | TGo, TN i v =>
        Some (w_log (w_thr (w_blk s i (fun b => b_scount b (S (scount b)))) t TIdle) [ESteal t (Some v)])
    | TGo, TA th =>
        let th' := increase th in
        if word_ltb th' (last s) then Some (w_thr s t (TL th'))                                      (* L400 *)
        else Some (w_log (w_thr s t TIdle) [ESteal t None])
    | _, _ => None
    end
  end.

Inductive reachable : state -> Prop :=
| r_init rg k : 0 < nb -> reachable (init rg k)
| r_owner s a s' : reachable s -> ostep a s = Some s' -> reachable s'
| r_thief s t a s' : reachable s -> tstep t a s = Some s' -> reachable s'.

End Params.
