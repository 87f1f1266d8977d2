(** * HeapModel: exec::intrusive_heap at pointer level.

    Models include/exec/detail/intrusive_heap.hpp L68-365 statement by statement: the memory is the
    three link fields of every node plus the root pointer and the size; a [Node**] is a location
    (the root, or the left/right field of a node).  Dereferencing a null pointer, violating an
    assertion, or exceeding the fuel of a loop makes an operation return None ("stuck").

    Simplifications: size_ is unbounded (a heap of SIZE_MAX nodes does not fit in memory); keys are
    integers compared with < (the only use in the repository is with time points,
    timed_thread_scheduler.hpp L249); a key does not change while its node is in the heap. *)

From Coq Require Import List Arith Bool ZArith NArith.
From Verif Require Import Conc QueueModel.
Import ListNotations.
Set Implicit Arguments.

Record mem := {
  key : nat -> Z;
  prev : nat -> ptr;
  left : nat -> ptr;
  right : nat -> ptr;
  root : ptr;                  (* L231 *)
  size : N }.                  (* L232 *)

Definition s_prev m x v := {| key := key m; prev := fset (prev m) x v; left := left m; right := right m; root := root m; size := size m |}.
Definition s_left m x v := {| key := key m; prev := prev m; left := fset (left m) x v; right := right m; root := root m; size := size m |}.
Definition s_right m x v := {| key := key m; prev := prev m; left := left m; right := fset (right m) x v; root := root m; size := size m |}.
Definition s_root m v := {| key := key m; prev := prev m; left := left m; right := right m; root := v; size := size m |}.
Definition s_size m v := {| key := key m; prev := prev m; left := left m; right := right m; root := root m; size := v |}.
Definition s_key m x v := {| key := fset (key m) x v; prev := prev m; left := left m; right := right m; root := root m; size := size m |}.

(** a Node** *)
Inductive loc := LRoot | LLeft (x : nat) | LRight (x : nat).
Definition load m l := match l with LRoot => root m | LLeft x => left m x | LRight x => right m x end.
Definition store m l v :=
  match l with LRoot => s_root m v | LLeft x => s_left m x v | LRight x => s_right m x v end.

Definition lt m (x y : nat) : bool := (key m x <? key m y)%Z.

(** L32-66: std::bit_ceil *)
Definition bit_ceil (n : N) : N := (2 ^ N.log2_up n)%N.
(** L70-73 *)
Definition path_bit_mask (n : N) : N := N.shiftr (bit_ceil (n + 1)) 2.
(** the values of [path_mask & path] over the iterations of
    [while (path_mask) { ...; path_mask >>= 1; }]  (L97-145, L104-127, L350-362) *)
Fixpoint mask_bits (fuel : nat) (mask path : N) : list bool :=
  match fuel with
  | 0 => []
  | S f => if (mask =? 0)%N then []
           else negb (N.land mask path =? 0)%N :: mask_bits f (N.shiftr mask 1) path
  end.
Definition path_bits (n : N) : list bool := mask_bits (N.size_nat n) (path_bit_mask n) n.

(** L104-132: replace one by one until reaching the bottom *)
Fixpoint ins_push (m : mem) (bits : list bool) (node : nat) (cur : ptr) : option mem :=
  match bits with
  | [] => match right m node with
          | None => Some (s_left m node None)                            (* L130-131 *)
          | Some _ => None
          end
  | b :: bits =>
      do c <- cur;
      if b then                                                          (* L106 *)
        let m := s_right m node (Some c) in                              (* L108 *)
        let m := s_left m node (left m c) in                             (* L109 *)
        do l <- left m c;
        let m := s_prev m l (Some node) in                               (* L110 *)
        ins_push m bits c (right m c)                                    (* L111-112 *)
      else
        let m := s_right m node (right m c) in                           (* L116 *)
        let m := s_left m node (Some c) in                               (* L117 *)
        let m := match right m c with                                    (* L118-121 *)
                 | Some r => s_prev m r (Some node)
                 | None => m
                 end in
        ins_push m bits c (left m c)                                     (* L122-123 *)
  end.

(** L97-150 *)
Fixpoint ins_walk (m : mem) (bits : list bool) (cur_ptr : loc) (cur parent : ptr) (node : nat) : option mem :=
  match bits with
  | [] => Some (s_left (s_right (s_prev (store m cur_ptr (Some node)) node parent) node None) node None)  (* L147-150 *)
  | b :: bits' =>
      do c <- cur;
      if lt m node c then                                                (* L99 *)
        let m := s_prev m node parent in                                 (* L101 *)
        let m := s_prev m c (Some node) in                               (* L102 *)
        let m := store m cur_ptr (Some node) in                          (* L103 *)
        ins_push m bits node (Some c)
      else
        let cur_ptr := if b then LRight c else LLeft c in                (* L134-141 *)
        ins_walk m bits' cur_ptr (load m cur_ptr) (Some c) node          (* L142-144 *)
  end.

(** L88-151 *)
Definition insert (m : mem) (node : nat) : option mem :=
  let m := s_size m (size m + 1) in
  ins_walk m (path_bits (size m)) LRoot (root m) None node.

(** L346-365 *)
Fixpoint rll (m : mem) (bits : list bool) (cur_ptr : loc) (cur : ptr) : option (mem * ptr) :=
  match bits with
  | [] => Some (store m cur_ptr None, cur)                               (* L363-364 *)
  | b :: bits =>
      do c <- cur;
      let cur_ptr := if b then LRight c else LLeft c in                  (* L352-359 *)
      rll m bits cur_ptr (load m cur_ptr)                                (* L360 *)
  end.
Definition remove_last_leaf (m : mem) (cur_ptr : loc) (path : N) : option (mem * ptr) :=
  rll m (path_bits path) cur_ptr (load m cur_ptr).

(** L234-242 *)
Definition swap_with_right_child (m : mem) (parent child : nat) : mem :=
  let m := s_right m parent (right m child) in
  let m := s_right m child (Some parent) in
  let t := left m parent in
  let m := s_left m parent (left m child) in
  s_left m child t.
(** L244-252 *)
Definition swap_with_left_child (m : mem) (parent child : nat) : mem :=
  let t := right m parent in
  let m := s_right m parent (right m child) in
  let m := s_right m child t in
  let m := s_left m parent (left m child) in
  s_left m child (Some parent).

(** a [Node**] pointing to the Prev field of a node, or to the local sentinel *)
Definition s_child (m : mem) (p : option nat) (v : ptr) : mem :=
  match p with Some x => s_prev m x v | None => m end.

(** L262-291 *)
Fixpoint up_loop (fuel : nat) (m : mem) (cur parent : nat) (grand : ptr) (child0 : option nat) : option mem :=
  match fuel with
  | 0 => None
  | S fuel =>
      let m := s_child m child0 (Some parent) in                         (* L264 *)
      let at_right := ptr_eqb (right m parent) (Some cur) in             (* L265 *)
      do c0 <- (if at_right then left m parent else right m parent);     (* L267, L272 *)
      let m := if at_right then swap_with_right_child m parent cur
               else swap_with_left_child m parent cur in                 (* L268, L273 *)
      let child1 := parent in                                            (* L275 *)
      do g <- grand;
      let m := if ptr_eqb (right m g) (Some parent) then s_right m g (Some cur)
               else s_left m g (Some cur) in                             (* L277-284 *)
      let parent := g in                                                 (* L285 *)
      let grand := prev m parent in                                      (* L286 *)
      if lt m cur parent then up_loop fuel m cur parent grand (Some c0)  (* L288 *)
      else
        let m := s_prev m c0 (Some cur) in                               (* L289 *)
        let m := s_prev m child1 (Some cur) in                           (* L290 *)
        Some (s_prev m cur (Some parent))                                (* L291 *)
  end.
(** L254-292 *)
Definition sift_up (fuel : nat) (m : mem) (cur parent : nat) : option mem :=
  let child0 := left m cur in                                            (* L257 *)
  let child1 := right m cur in                                           (* L258 *)
  let m := s_child m child1 (Some parent) in                             (* L260 *)
  up_loop fuel m cur parent (prev m parent) child0.

(** L298-343 *)
Fixpoint down_loop (fuel : nat) (m : mem) (cur : nat) (cur_ptr : loc) (parent lf rt : ptr) : option mem :=
  match fuel with
  | 0 => None
  | S fuel =>
      match lf with
      | None => Some (s_prev m cur parent)                               (* L343 *)
      | Some l =>
          let right_smaller := match rt with Some r => lt m r l | None => false end in  (* L300 *)
          if right_smaller then
            do r <- rt;
            if lt m r cur then                                           (* L302 *)
              let m := swap_with_right_child m cur r in                  (* L304 *)
              let parent := Some r in                                    (* L305 *)
              let m := s_prev m l (Some r) in                            (* L306 *)
              let m := store m cur_ptr (Some r) in                       (* L307 *)
              down_loop fuel m cur (LRight r) parent (left m cur) (right m cur)   (* L308, L340-341 *)
            else
              let m := s_prev m r (Some cur) in                          (* L312 *)
              let m := s_prev m l (Some cur) in                          (* L313 *)
              Some (s_prev m cur parent)                                 (* L314, L343 *)
          else
            if lt m l cur then                                           (* L319 *)
              let m := swap_with_left_child m cur l in                   (* L321 *)
              let parent := Some l in                                    (* L322 *)
              let m := match rt with Some r => s_prev m r (Some l) | None => m end in  (* L323-326 *)
              let m := store m cur_ptr (Some l) in                       (* L327 *)
              down_loop fuel m cur (LLeft l) parent (left m cur) (right m cur)    (* L328, L340-341 *)
            else
              let m := match rt with Some r => s_prev m r (Some cur) | None => m end in  (* L332-335 *)
              let m := s_prev m l (Some cur) in                          (* L336 *)
              Some (s_prev m cur parent)                                 (* L337, L343 *)
      end
  end.
(** L294-344 *)
Definition sift_down (fuel : nat) (m : mem) (cur : nat) (cur_ptr : loc) (parent : ptr) : option mem :=
  down_loop fuel m cur cur_ptr parent (left m cur) (right m cur).

(** loops run at most once per level; this much fuel is always enough (proved) *)
Definition enough (m : mem) : nat := S (N.to_nat (size m)).

(** L153-173 *)
Definition pop_front (m : mem) : option mem :=
  if (size m <=? 1)%N then Some (s_size (s_root m None) 0)               (* L155-160 *)
  else
    do _ <- root m;                                                      (* L161 *)
    do mc <- remove_last_leaf m LRoot (size m);                          (* L162 *)
    let (m, cur) := mc in
    do cur <- cur;
    do top <- root m;                                                    (* L163 *)
    let m := s_right m cur (right m top) in                              (* L165 *)
    let m := s_left m cur (left m top) in                                (* L166 *)
    let m := s_root m (Some cur) in                                      (* L167 *)
    let m := s_size m (size m - 1) in                                    (* L169 *)
    do m <- sift_down (enough m) m cur LRoot None;                       (* L170 *)
    do r <- root m;
    Some (s_prev m r None).                                              (* L171 *)

(** L175-178 *)
Definition front (m : mem) : ptr := root m.

(** L180-228 *)
Definition erase (m : mem) (node : nat) : option (mem * bool) :=
  if ptr_eqb (prev m node) None && negb (ptr_eqb (Some node) (root m)) then Some (m, false)  (* L182-186 *)
  else
    do _ <- root m;                                                      (* L187 *)
    if (size m =? 0)%N then None else                                    (* L188 *)
    do mc <- remove_last_leaf m LRoot (size m);                          (* L189 *)
    let (m, cur) := mc in
    let m := s_size m (size m - 1) in                                    (* L190 *)
    if ptr_eqb cur (Some node) then Some (s_prev m node None, true)      (* L191-195 *)
    else
      do cur <- cur;
      let m := s_right m cur (right m node) in                           (* L197 *)
      let m := s_left m cur (left m node) in                             (* L198 *)
      let parent := prev m node in                                       (* L200 *)
      match parent with
      | Some p =>
          let cur_ptr := if ptr_eqb (right m p) (Some node) then LRight p else LLeft p in  (* L203-210 *)
          let m := store m cur_ptr (Some cur) in                         (* L211 *)
          if lt m cur p then                                             (* L212 *)
            do m <- sift_up (enough m) m cur p;                          (* L214 *)
            Some (s_prev m node None, true)                              (* L215-216 *)
          else
            do m <- sift_down (enough m) m cur cur_ptr parent;           (* L224 *)
            do c <- load m cur_ptr;
            Some (s_prev (s_prev m c parent) node None, true)            (* L225-227 *)
      | None =>
          let cur_ptr := LRoot in                                        (* L221 *)
          let m := store m cur_ptr (Some cur) in                         (* L222 *)
          do m <- sift_down (enough m) m cur cur_ptr parent;             (* L224 *)
          do c <- load m cur_ptr;
          Some (s_prev (s_prev m c parent) node None, true)              (* L225-227 *)
      end.

(** ** Histories of a heap: the caller inserts nodes that are not in the heap, erases any node
    whatever, pops, and may write the key and the left/right links of a node that is not in the
    heap.  The list is ghost: the nodes inserted and neither popped (what front() named) nor
    erased. *)
Definition empty (kv : nat -> Z) (lf rt : nat -> ptr) : mem :=
  {| key := kv; prev := fun _ => None; left := lf; right := rt; root := None; size := 0 |}.

Inductive reachable : mem -> list nat -> Prop :=
| r_init kv lf rt : reachable (empty kv lf rt) []
| r_insert m S x m' : reachable m S -> ~ In x S -> insert m x = Some m' -> reachable m' (x :: S)
| r_pop m S m' : reachable m S -> pop_front m = Some m' ->
    reachable m' (match front m with Some x => remove Nat.eq_dec x S | None => S end)
| r_erase m S x m' b : reachable m S -> erase m x = Some (m', b) ->
    reachable m' (remove Nat.eq_dec x S)
| r_write m S x k l r : reachable m S -> ~ In x S ->
    reachable (s_right (s_left (s_key m x k) x l) x r) S.
