(** Model of how static_thread_pool places threads and tasks on NUMA nodes:
    - /repo/include/exec/detail/numa.hpp: _node_to_thread_index::get L139-155, default_numa_policy::thread_index_to_node L190-197 (with the 32-bit int arithmetic of the code);
    - /repo/include/exec/static_thread_pool.hpp: num_threads(int) L824-834, num_threads(nodemask) L836-851, get_thread_index L853-862, random_thread_index_with_constraints L864-889,
      enqueue L891-913, bulk_enqueue L943-976, thread_state::victims L618-633, the table built in the constructor L743-751.
    Simplified: lower_bound and upper_bound are given by the position their contract guarantees on a sorted range (the number of elements before, or not behind, the key);
    the table is any sorted arrangement of the threads (std::ranges::sort is not stable); a policy is the node of every thread and the number of nodes. None: a failed assertion or an access out of range. *)
From Coq Require Import List ZArith NArith Bool Arith.
From Verif Require Import Conc EvenShareModel.
Import ListNotations.
Set Implicit Arguments.

(** ** default_numa_policy *)
(** L146-152: the prefix sums; static_cast<int> *)
Definition to_int (x : Z) : Z := let m := (x mod 2 ^ 32)%Z in if (m <? 2 ^ 31)%Z then m else (m - 2 ^ 32)%Z.
Fixpoint prefix (total : Z) (cpus : list Z) : list Z :=
  match cpus with [] => [] | c :: cpus => to_int (total + c) :: prefix (total + c) cpus end.
Definition node_index (cpus : list Z) : list Z := prefix 0 cpus.
(** L190-197: None: division by zero, back() of an empty vector, or the assertion *)
Definition thread_index_to_node (cpus : list Z) (idx : Z) : option nat :=
  match rev (node_index cpus) with
  | [] => None
  | b :: _ =>
      if (b =? 0)%Z then None else
      let index := Z.rem (to_int idx) b in
      let k := length (filter (fun x => (x <=? index)%Z) (node_index cpus)) in   (* upper_bound *)
      if k <? length (node_index cpus) then Some k else None
  end.

(** ** static_thread_pool *)
(** an entry: the node, the thread's index *)
Definition entry := (nat * nat)%type.
Record pool := mkp { nodes : list nat; num_nodes : nat; table : list entry }.
Definition mask := nat -> bool.
Definition count (p : pool) := length (nodes p).

Definition lower (t : list entry) (k : nat) := length (filter (fun e => fst e <? k) t).
Definition upper (t : list entry) (k : nat) := length (filter (fun e => fst e <=? k) t).
Definition num_threads (p : pool) (k : nat) : nat :=
  if lower (table p) k =? length (table p) then 0 else upper (table p) k - lower (table p) k.
Definition back_node (p : pool) : nat := match rev (table p) with [] => 0 | e :: _ => fst e end.
Definition num_threads_mask (p : pool) (m : mask) : nat :=
  fold_left (fun n k => if m k then n + num_threads p k else n) (seq 0 (back_node p + 1)) 0.
Definition get_thread_index (p : pool) (k i : nat) : option nat :=
  if lower (table p) k =? length (table p) then None else
  match nth_error (table p) (lower (table p) k + i) with Some e => Some (snd e) | None => None end.
(** L874-888 *)
Fixpoint pick (p : pool) (m : mask) (ks : list nat) (target : nat) : option nat :=
  match ks with
  | [] => Some target
  | k :: ks =>
      if m k then
        let n := num_threads p k in
        if target <? n then get_thread_index p k target else pick p m ks (target - n)
      else pick p m ks target
  end.
(** start: the value of start_index after the increment L869 *)
Definition random_thread (p : pool) (m : mask) (start : nat) : option nat :=
  let n := num_threads_mask p m in
  let d := if n =? 0 then count p else n in
  if d =? 0 then None else
  let target := start mod d in
  if negb (n =? 0) then pick p m (seq 0 (num_nodes p)) target else Some target.

Inductive place := Local (i : nat) | Remote (i : nat).   (* pushed to the thread's own queue, or to the queue by which others reach thread i *)
(** L891-913; me: the index in the queue of the calling thread, a thread of the pool if less than the number of threads *)
Definition enqueue (p : pool) (m : mask) (me start : nat) : option place :=
  match nth_error (nodes p) me with
  | Some k => if m k then Some (Local me) else match random_thread p m start with Some i => Some (Remote i) | None => None end
  | None => match random_thread p m start with Some i => Some (Remote i) | None => None end
  end.
(** L943-976: where every task goes, with the tasks in the order given *)
Fixpoint shares (n size : N) (ranks : list nat) (tasks : list nat) : list (place * list nat) :=
  match ranks with
  | [] => []
  | i :: ranks =>
      let (b, e) := even_share n (N.of_nat i) size in
      let c := N.to_nat (e - b) in
      if (b =? e)%N then shares n size ranks tasks
      else (Remote i, firstn c tasks) :: shares n size ranks (skipn c tasks)
  end.
Definition bulk_enqueue (p : pool) (m : mask) (me : nat) (tasks : list nat) : list (place * list nat) :=
  let spread := shares (N.of_nat (length tasks)) (N.of_nat (count p)) (seq 0 (count p)) tasks in
  match nth_error (nodes p) me with
  | Some k => if m k then [(Local me, tasks)] else spread
  | None => spread
  end.
(** L618-633: near_victims_ and all_victims_ of thread me *)
Definition all_victims (p : pool) (me : nat) : list nat := filter (fun i => negb (i =? me)) (seq 0 (count p)).
Definition near_victims (p : pool) (me : nat) : list nat :=
  filter (fun i => match nth_error (nodes p) i, nth_error (nodes p) me with Some a, Some b => a =? b | _, _ => false end) (all_victims p me).
