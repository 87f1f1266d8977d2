(** C56, C57: bulk and schedule on parallel_scheduler and task_scheduler. *)
From Coq Require Import List Bool Arith NArith Permutation Lia.
From Verif Require Import SchedBackendModel.
Import ListNotations.
Set Implicit Arguments.

(** ** Specification *)
(** The indices the user's function was called for, the completions of the receiver. *)
Definition range (xy : nat * nat) : list nat := seq (fst xy) (snd xy - fst xy).
Definition indices (l : list event) : list nat := flat_map (fun e => match e with ECall b e => range (b, e) | _ => [] end) l.
Definition called (l : list event) : list (nat * nat) := flat_map (fun e => match e with ECall b e => [(b, e)] | _ => [] end) l.
Definition completions (l : list event) : list sig := flat_map (fun e => match e with ECompl c => [c] | _ => [] end) l.
(** What a backend must do with count items: chunked, call execute for ranges that make up 0 .. count-1, none of them empty (if count is not 0); unchunked, for
    every single index (comments in PB L118-143). *)
Definition conforming (ch : bool) (n : nat) (l : list (nat * nat)) : Prop :=
  if ch then Permutation (flat_map range l) (seq 0 n) /\ (0 < n -> Forall (fun xy => fst xy < snd xy) l) else Permutation l (map (fun i => (i, i + 1)) (seq 0 n)).
(** What may happen while the backend executes the items, in any order and on any number of threads. *)
Definition executes (b : bulk) (thr : nat * nat -> bool) (t : list event) : Prop :=
  exists l, conforming (chunked b) (count b) l /\ shuffle (map (execute b thr) l) t.
Definition possible (b : bulk) (thr : nat * nat -> bool) (x : script) : Prop :=
  match x with Run t => executes b thr t | StopReq | PoolStp => im b = Parallel | _ => True end.
Definition no_throw (thr : nat * nat -> bool) : Prop := forall x, thr x = false.
(** Nothing of the operation is used after its completion: only destructors run. *)
Fixpoint quiet_after (l : list event) : Prop :=
  match l with
  | [] => True
  | ECompl _ :: l => Forall (fun e => match e with ED _ => True | _ => False end) l
  | _ :: l => quiet_after l
  end.
(** Objects are constructed when they are not alive and destroyed when they are; at the end none is alive. *)
Definition oeqb (x y : obj) : bool := match x, y with OPtr, OPtr | OInner, OInner | OArgs, OArgs | OPool, OPool => true | _, _ => false end.
Fixpoint proper (alive : list obj) (l : list event) : option (list obj) :=
  match l with
  | [] => Some alive
  | EC o :: l => if existsb (oeqb o) alive then None else proper (o :: alive) l
  | ED o :: l => if existsb (oeqb o) alive then proper (filter (fun x => negb (oeqb o x)) alive) l else None
  | _ :: l => proper alive l
  end.
(** The backend pointer, the predecessor's operation and the backend's operation use the same storage in parallel_scheduler's operations. *)
Definition shares (o : obj) : bool := match o with OArgs => false | _ => true end.
Fixpoint exclusive (alive : list obj) (l : list event) : Prop :=
  match l with
  | [] => True
  | EC o :: l => (shares o = true -> Forall (fun x => shares x = false) alive) /\ exclusive (o :: alive) l
  | ED o :: l => exclusive (filter (fun x => negb (oeqb o x)) alive) l
  | _ :: l => exclusive alive l
  end.
(** The program is over: it has terminated or its behaviour is undefined. *)
Definition ends (l : list event) : Prop := In ETerm l \/ In EUB l.

(** ** Lemmas *)
Lemma shuffle_perm A (ls : list (list A)) t : shuffle ls t -> Permutation t (concat ls).
Proof.
  induction 1 as [ls H|ls1 x l ls2 t _ IH].
  - induction ls as [|l ls IH]; [constructor|]. cbn. rewrite (H l (or_introl eq_refl)). cbn. apply IH. intros y Y. apply H. right. exact Y.
  - rewrite concat_app in *. cbn in *. etransitivity; [constructor; apply IH|]. apply Permutation_middle.
Qed.
Lemma flat_map_perm A B (f : A -> list B) l l' : Permutation l l' -> Permutation (flat_map f l) (flat_map f l').
Proof. intros H. rewrite !flat_map_concat_map. induction H; cbn; auto; [apply Permutation_app_head; auto| |etransitivity; eauto]. rewrite !app_assoc. apply Permutation_app_tail, Permutation_app_comm. Qed.
Lemma flat_map_flat_map A B C (f : B -> list C) (g : A -> list B) l : flat_map f (flat_map g l) = flat_map (fun x => flat_map f (g x)) l.
Proof. induction l; cbn; [reflexivity|]. rewrite flat_map_app, IHl. reflexivity. Qed.
Lemma concat_map_flat A B (f : A -> list B) l : concat (map f l) = flat_map f l.
Proof. symmetry. apply flat_map_concat_map. Qed.

(** *** Chunks *)
Lemma chunk_size_pos W avail size : 3 * avail < W -> 0 < chunk_size W avail size /\ (chunk_size W avail size <= 1 \/ chunk_size W avail size <= size).
Proof.
  intros H. unfold chunk_size. destruct (0 <? avail) eqn:A; cbn [andb]; [|lia]. apply Nat.ltb_lt in A. rewrite Nat.mod_small by auto.
  destruct (3 * avail <? size) eqn:B; [|lia]. apply Nat.ltb_lt in B. assert (2 <= size / avail) by (apply Nat.div_le_lower_bound; lia).
  split; [assert (1 <= size / avail / 2) by (apply Nat.div_le_lower_bound; lia); lia|right].
  etransitivity; [apply Nat.div_le_upper_bound with (q := size / avail); lia|]. apply Nat.div_le_upper_bound; nia.
Qed.
Lemma ranges_seq : forall n c size, 0 < c -> (forall k, k < n -> k * c < size) -> 
  flat_map (fun k => seq (k * c) (Nat.min ((k + 1) * c) size - k * c)) (seq 0 n) = seq 0 (Nat.min (n * c) size).
Proof.
  induction n as [|n IH]; intros c size C H; [reflexivity|].
  rewrite seq_S, flat_map_app, IH by (auto; intros; apply H; lia). cbn [flat_map Nat.add]. rewrite app_nil_r.
  assert (n * c < size) by (apply H; lia). rewrite (Nat.min_l (n * c) size) by lia.
  replace (Nat.min (S n * c) size) with (n * c + (Nat.min ((n + 1) * c) size - n * c)) by (replace (S n * c) with ((n + 1) * c) by nia; nia).
  rewrite seq_app. reflexivity.
Qed.
(** The default backend covers the index space exactly, for every size and parallelism (unless the arithmetic overflows). *)
Theorem default_chunked_conforming W avail size ks : 2 * size + 1 < W -> 3 * avail < W ->
  Permutation ks (seq 0 (num_chunks W size (chunk_size W avail size))) -> conforming true size (default_chunked W avail size ks).
Proof.
  intros HW HA P. unfold conforming, default_chunked. set (c := chunk_size W avail size) in *.
  destruct (chunk_size_pos (W := W) avail size HA) as [C1 C2]. fold c in C1, C2.
  unfold num_chunks in *. rewrite Nat.mod_small in * by lia. set (n := (size + c - 1) / c) in *.
  pose proof (Nat.div_mod (size + c - 1) c) as D. pose proof (Nat.mod_upper_bound (size + c - 1) c) as M. fold n in D.
  assert (N : n * c <= size + c - 1) by (rewrite (Nat.mul_comm n c); lia).
  assert (N2 : size <= n * c) by (rewrite (Nat.mul_comm n c); lia).
  assert (LT : forall k, k < n -> k * c < size) by (intros k K; assert ((k + 1) * c <= n * c) by (apply Nat.mul_le_mono_r; lia); lia).
  split.
  2:{ intros _. rewrite Forall_forall. intros xy X. apply in_map_iff in X. destruct X as [k [<- K]]. eapply Permutation_in in K; [|exact P]. apply in_seq in K.
      assert ((k + 1) * c <= n * c) by (apply Nat.mul_le_mono_r; lia). specialize (LT k). unfold chunk_end, chunk_begin. cbn [fst snd]. rewrite !Nat.mod_small by (nia || lia). lia. }
  etransitivity; [apply flat_map_perm; apply Permutation_map; apply P|]. rewrite flat_map_concat_map, map_map, concat_map_flat.
  replace (seq 0 size) with (seq 0 (Nat.min (n * c) size)) by (f_equal; lia).
  rewrite <- (@ranges_seq n c size C1).
  - assert (E : forall m, m <= n -> flat_map (fun x => range (chunk_begin W c x, chunk_end W c size x)) (seq 0 m) = flat_map (fun k => seq (k * c) (Nat.min ((k + 1) * c) size - k * c)) (seq 0 m)).
    { induction m as [|m IH]; intros Hm; [reflexivity|]. rewrite !seq_S, !flat_map_app, IH by lia. f_equal. cbn. rewrite !app_nil_r. unfold chunk_end, chunk_begin, range. cbn [fst snd].
      assert ((m + 1) * c <= n * c) by (apply Nat.mul_le_mono_r; lia). rewrite !Nat.mod_small by (nia || lia). reflexivity. }
    rewrite E by lia. reflexivity.
  - exact LT.
Qed.
(** so does the unchunked one *)
Theorem default_unchunked_conforming size ks : Permutation ks (seq 0 size) -> conforming false size (default_unchunked ks).
Proof. intros P. unfold conforming, default_unchunked. apply Permutation_map. exact P. Qed.
(** and a scheduler without parallelism, whose bulk calls the function once *)
Theorem sequential_conforming size : conforming true size [(0, size)].
Proof. unfold conforming. cbn. unfold range. cbn. rewrite app_nil_r, Nat.sub_0_r. split; [reflexivity|]. intros H. constructor; [exact H|constructor]. Qed.

(** The backend's operation is constructed inside the storage it was given and aligned, or on the heap. *)
Theorem placement_fits p n size k q : placement p n size k = Some q -> (N.modulo q (2 ^ k) = 0 /\ p <= q /\ q + size <= p + n)%N.
Proof.
  unfold placement, ensure_alignment. set (a := N.pow 2 k). assert (A : a <> 0%N) by (apply N.pow_nonzero; discriminate).
  destruct (N.eqb_spec (N.modulo p a) 0) as [E|E].
  - destruct (N.eqb p 0); cbn; [discriminate|]. destruct (N.ltb_spec n size) as [L|L]; [discriminate|]. intros [= <-]. split; [exact E|]. lia.
  - destruct (N.ltb_spec n a) as [L|L]; [discriminate|].
    assert (O : (a - 1)%N = N.ones k) by (unfold a; rewrite N.ones_equiv; lia).
    assert (Q : (N.ldiff (p + a - 1) (a - 1) = (p + a - 1) / a * a)%N) by (rewrite O, N.ldiff_ones_r, N.shiftl_mul_pow2, N.shiftr_div_pow2; reflexivity).
    rewrite Q. set (q' := ((p + a - 1) / a * a)%N). pose proof (N.div_mod (p + a - 1) a A) as D. pose proof (N.mod_upper_bound (p + a - 1) a A) as M. rewrite N.mul_comm in D. fold q' in D.
    assert (p <= q' /\ q' < p + a)%N by (clear - D M A; generalize dependent ((p + a - 1) mod a)%N; clearbody a q'; intros; lia).
    destruct (N.eqb q' 0); cbn; [discriminate|]. destruct (N.ltb_spec (n - (q' - p)) size) as [L2|L2]; [discriminate|]. intros [= <-].
    split; [apply N.mod_mul; exact A|]. lia.
Qed.
(** and storage that is aligned and large enough is used *)
Theorem placement_uses_storage p n size k : p <> 0%N -> N.modulo p (2 ^ k) = 0%N -> (size <= n)%N -> placement p n size k = Some p.
Proof.
  intros P A L. unfold placement, ensure_alignment. rewrite A. cbn. destruct (N.eqb_spec p 0); [contradiction|]. destruct (N.ltb_spec n size); [lia|reflexivity].
Qed.

(** *** Bulk *)
Lemma shuffle_one A (l t : list A) : shuffle [l] t -> t = l.
Proof.
  remember [l] as ls eqn:E. intros H. revert l E. induction H as [ls H|ls1 x l ls2 t _ IH]; intros l0 E.
  - subst ls. symmetry. apply H. left. reflexivity.
  - destruct ls1 as [|a [|b ls1]]; try discriminate. cbn in *. injection E as <- ->. f_equal. apply IH. reflexivity.
Qed.
Lemma body_called thr f l : no_throw thr -> called (body thr f l) = l /\ completions (body thr f l) = [] /\ cut (body thr f l) = body thr f l /\ ~ ends (body thr f l).
Proof.
  intros N. unfold called, completions. induction l as [|[x y] l [A [B [C D]]]]; cbn; [repeat split; auto; intros [[]|[]]|]. rewrite N. cbn. rewrite A, B, C. split; [|split; [|split]]; auto.
  intros [[X|X]|[X|X]]; try discriminate; apply D; [left|right]; exact X.
Qed.
Lemma indices_called l : indices l = flat_map range (called l).
Proof. unfold indices, called. rewrite flat_map_flat_map. apply flat_map_ext. intros [| |x y| | |]; cbn; rewrite ?app_nil_r; reflexivity. Qed.
Lemma called_app l l' : called (l ++ l') = called l ++ called l'. Proof. apply flat_map_app. Qed.
Lemma completions_app l l' : completions (l ++ l') = completions l ++ completions l'. Proof. apply flat_map_app. Qed.
Lemma indices_app l l' : indices (l ++ l') = indices l ++ indices l'. Proof. apply flat_map_app. Qed.
Lemma cut_id l : ~ In ETerm l -> cut l = l.
Proof. induction l as [|e l IH]; intros H; [reflexivity|]. assert (~ In ETerm l) by (intros X; apply H; right; exact X). destruct e; cbn; try (f_equal; auto; fail). destruct H. left; reflexivity. Qed.
(** what a body consists of *)
Definition of_body (f e : event) : Prop := match e with ECall _ _ => True | _ => e = f end.
Lemma body_of thr f l : Forall (of_body f) (body thr f l).
Proof. induction l as [|x l IH]; cbn; [constructor|]. constructor; [exact I|]. destruct (thr x); auto. constructor; [|constructor]. destruct f; cbn; auto. Qed.
Lemma body_of' thr f l : no_throw thr -> Forall (fun e => exists x y, e = ECall x y) (body thr f l).
Proof. intros N. induction l as [|x l IH]; cbn; [constructor|]. rewrite N. constructor; eauto. Qed.
Lemma executes_forall P b thr t : executes b thr t -> (forall xy, Forall P (execute b thr xy)) -> Forall P t.
Proof.
  intros [l [_ S]] H. apply shuffle_perm in S. rewrite Forall_forall. intros e E. eapply Permutation_in in E; [|exact S]. apply in_concat in E. destruct E as [q [Q1 Q2]].
  apply in_map_iff in Q1. destruct Q1 as [xy [<- _]]. specialize (H xy). rewrite Forall_forall in H. auto.
Qed.
Lemma flat_map_range1 n x : flat_map range (map (fun i => (i, i + 1)) (seq x n)) = seq x n.
Proof. revert x. induction n as [|n IH]; intros x; [reflexivity|]. cbn. rewrite IH. unfold range. cbn. replace (x + 1 - x) with 1 by lia. reflexivity. Qed.
Lemma executes_called b thr t : executes b thr t -> no_throw thr -> (im b = Parallel \/ par b = true) ->
  if par b then Permutation (indices t) (seq 0 (shape b)) else indices t = seq 0 (shape b) /\ (chunked b = true -> called t = [(0, shape b)]).
Proof.
  intros [l [C S]] N K.
  destruct (par b) eqn:P.
  - rewrite indices_called. apply shuffle_perm in S. rewrite concat_map_flat in S. 
    assert (Q : Permutation (called t) (flat_map (calls b) l)).
    { etransitivity; [unfold called; apply flat_map_perm; exact S|]. rewrite flat_map_flat_map. erewrite flat_map_ext; [reflexivity|]. intros xy. apply (@body_called thr _ (calls b xy) N). }
    etransitivity; [apply flat_map_perm; exact Q|]. rewrite flat_map_flat_map. unfold count in C. rewrite P in C. 
    assert (C' : conforming (chunked b) (shape b) l) by (destruct (im b); exact C). clear C. unfold calls. rewrite P. unfold conforming in C'. destruct (chunked b).
    + erewrite flat_map_ext; [exact (proj1 C')|]. intros xy. cbn. apply app_nil_r.
    + etransitivity; [apply flat_map_perm; exact C'|]. rewrite <- (flat_map_range1 (shape b) 0) at 2. rewrite !flat_map_concat_map, !map_map. 
      erewrite map_ext; [reflexivity|]. intros i. cbn. apply app_nil_r.
  - destruct K as [K|K]; [|discriminate]. unfold count in C. rewrite K, P in C.
    assert (L : exists xy, l = [xy] /\ (chunked b = false -> fst xy = 0)).
    { unfold conforming in C. destruct (chunked b).
      - destruct C as [C D]. specialize (D Nat.lt_0_1). destruct l as [|xy l]; [apply Permutation_nil in C; discriminate|]. exists xy. split; [|discriminate].
        inversion_clear D as [|? ? D1 D2]. apply Permutation_length in C. cbn in C. rewrite app_length in C. unfold range in C at 1. rewrite seq_length in C.
        destruct l as [|zw l]; [reflexivity|]. inversion_clear D2 as [|? ? D3 D4]. cbn in C. rewrite app_length in C. unfold range in C at 1. rewrite seq_length in C. lia.
      - apply Permutation_sym, Permutation_length_1_inv in C. subst l. exists (0, 1). auto. }
    destruct L as [xy [-> L]]. apply shuffle_one in S. subst t. rewrite indices_called. destruct (@body_called thr (match im b with Task => ECompl Err | Parallel => ETerm end) (calls b xy) N) as [B _].
    unfold execute. rewrite B. unfold calls. rewrite P. destruct (chunked b).
    + split; [|reflexivity]. cbn. unfold range. cbn. rewrite app_nil_r, Nat.sub_0_r. reflexivity.
    + rewrite (L eq_refl). split; [apply flat_map_range1|discriminate].
Qed.

(** ** C56 *)
(** bulk calls the function for every index below the shape exactly once: on parallel_scheduler for every policy, on
    task_scheduler if the policy is parallel; the receiver gets the values afterwards, and that is all. *)
Theorem bulk_visits_each_index_once_partial b thr t : executes b thr t -> no_throw thr -> im b = Parallel \/ par b = true ->
  Permutation (indices (bulk_op b (Run t))) (seq 0 (shape b)) /\ completions (bulk_op b (Run t)) = [Val] /\ quiet_after (bulk_op b (Run t)) /\ ~ ends (bulk_op b (Run t)).
Proof.
  intros E N K. pose proof (executes_called E N K) as V. assert (F : Forall (fun e => exists x y, e = ECall x y) t) by (apply (executes_forall E); intros xy; apply body_of'; exact N).
  assert (V' : Permutation (indices t) (seq 0 (shape b))) by (destruct (par b); [exact V|rewrite (proj1 V); reflexivity]). clear V.
  assert (T1 : ~ In ETerm t) by (rewrite Forall_forall in F; intros X; destruct (F _ X) as [? [? ?]]; discriminate).
  assert (T2 : ~ In EUB t) by (rewrite Forall_forall in F; intros X; destruct (F _ X) as [? [? ?]]; discriminate).
  assert (T3 : completions t = []) by (clear - F; induction F as [|e t [x [y ->]] _ IH]; [reflexivity|exact IH]).
  assert (T4 : forall r, quiet_after (t ++ r) <-> quiet_after r) by (intros r; clear - F; induction F as [|e t [x [y ->]] _ IH]; [reflexivity|exact IH]).
  unfold bulk_op, task_bulk, par_bulk. destruct (im b).
  - cbn [app]. cbn [indices flat_map app]. unfold indices in *. cbn [flat_map app]. rewrite flat_map_app. cbn. rewrite app_nil_r. split; [exact V'|]. unfold completions in *. rewrite flat_map_app, T3. split; [reflexivity|]. split; [apply T4; cbn; repeat constructor|].
    intros [X|X]; repeat (destruct X as [X|X]; [discriminate|]); apply in_app_or in X; destruct X as [X|X]; auto; repeat (destruct X as [X|X]; [discriminate|]); exact X.
  - rewrite cut_id. 2:{ cbn. intros X. repeat (destruct X as [X|X]; [discriminate|]). apply in_app_or in X. destruct X as [X|X]; auto. repeat (destruct X as [X|X]; [discriminate|]). exact X. }
    cbn [app]. cbn [indices flat_map app]. unfold indices in *. cbn [flat_map app]. rewrite flat_map_app. cbn. rewrite app_nil_r. split; [exact V'|]. unfold completions in *. rewrite flat_map_app, T3. split; [reflexivity|]. split; [apply T4; cbn; repeat constructor|].
    intros [X|X]; repeat (destruct X as [X|X]; [discriminate|]); apply in_app_or in X; destruct X as [X|X]; auto; repeat (destruct X as [X|X]; [discriminate|]); exact X.
Qed.
(** With a sequential policy parallel_scheduler calls the function in order, and a chunked function once. *)
Theorem parallel_bulk_sequential_in_order b thr t : executes b thr t -> no_throw thr -> im b = Parallel -> par b = false ->
  indices t = seq 0 (shape b) /\ (chunked b = true -> called t = [(0, shape b)]).
Proof. intros E N K P. pose proof (executes_called E N (or_introl K)) as V. rewrite P in V. exact V. Qed.

(** A started bulk operation completes exactly once, whatever happens before (and then nothing else happens), or the program is terminated:
    on parallel_scheduler always, on task_scheduler if the function does not throw. *)
Lemma calls_or_term t : Forall (of_body ETerm) t -> In ETerm t \/ Forall (fun e => exists x y, e = ECall x y) t.
Proof. induction 1 as [|e t E _ [IH|IH]]; [right; constructor|left; right; exact IH|]. destruct e; cbn in E; try discriminate; [right; constructor; eauto|left; left; reflexivity]. Qed.
Lemma cut_calls t r : Forall (of_body ETerm) t -> In ETerm t -> In ETerm (cut (t ++ r)) /\ completions (cut (t ++ r)) = [] /\ forall a, proper a (cut (t ++ r)) = Some a /\ exclusive a (cut (t ++ r)).
Proof.
  induction 1 as [|e t E _ IH]; [intros []|]. intros [->|X]; [cbn; auto|]. destruct (IH X) as [A [B C]]. destruct e; cbn in E; try discriminate; cbn; auto 6.
Qed.
Lemma calls_skip t r : Forall (fun e => exists x y, e = ECall x y) t -> completions (t ++ r) = completions r /\ (quiet_after r -> quiet_after (t ++ r)) /\ (forall a, proper a (t ++ r) = proper a r /\ (exclusive a r -> exclusive a (t ++ r))) /\ (ends (t ++ r) -> ends r) /\ ~ In ETerm t.
Proof.
  induction 1 as [|e t [x [y ->]] _ [A [B [C [D E]]]]]; cbn; [auto 7|]. split; [exact A|]. split; [exact B|]. split; [exact C|]. split.
  - intros [[X|X]|[X|X]]; try discriminate; apply D; [left|right]; exact X.
  - intros [X|X]; [discriminate|auto].
Qed.
Lemma cut_app t r : ~ In ETerm t -> cut (t ++ r) = t ++ cut r.
Proof. induction t as [|e t IH]; intros H; [reflexivity|]. cbn. assert (~ In ETerm t) by (intros X; apply H; right; exact X). destruct e; cbn; try (f_equal; auto; fail). destruct H. left. reflexivity. Qed.
Lemma executes_calls b thr t : executes b thr t -> im b = Parallel -> Forall (of_body ETerm) t.
Proof. intros E K. apply (executes_forall E). intros xy. unfold execute. rewrite K. apply body_of. Qed.
Theorem bulk_completes_once_partial b thr x : possible b thr x -> x <> Unstarted -> im b = Parallel \/ no_throw thr ->
  length (completions (bulk_op b x)) <= 1 /\ (ends (bulk_op b x) \/ length (completions (bulk_op b x)) = 1 /\ quiet_after (bulk_op b x)).
Proof.
  intros P S K. unfold bulk_op. destruct (im b) eqn:I.
  - destruct K as [K|K]; [discriminate|]. destruct x as [| | | | | | |t]; cbn in P; try congruence; try (cbn; split; [lia|right; split; [reflexivity|repeat constructor]]).
    + cbn. split; [lia|]. left. right. cbn. auto.
    + assert (F : Forall (fun e => exists x y, e = ECall x y) t) by (apply (executes_forall P); intros xy; apply body_of'; exact K).
      destruct (@calls_skip t [ED OPool; ECompl Val; ED OInner; ED OPtr; ED OArgs] F) as [A [B _]]. unfold task_bulk. cbn [app]. 
      change (completions _) with (completions (t ++ [ED OPool; ECompl Val; ED OInner; ED OPtr; ED OArgs])). rewrite A. cbn. split; [lia|]. right. split; [reflexivity|]. apply B. cbn. repeat constructor.
  - destruct x as [| | | | | | |t]; cbn in P; try congruence; try (cbn; split; [lia|right; split; [reflexivity|repeat constructor]]).
    + cbn. split; [lia|]. left. left. cbn. auto.
    + pose proof (executes_calls P I) as F. unfold par_bulk. cbn [app cut]. set (r := [ED OPool; ED OArgs; ECompl Val]).
      change (completions _) with (completions (cut (t ++ r))). 
      destruct (calls_or_term F) as [T|T].
      * destruct (@cut_calls t r F T) as [A [B _]]. rewrite B. cbn [length]. split; [lia|]. left. left. right. right. right. right. exact A.
      * destruct (@calls_skip t r T) as [A [B [_ [_ E]]]]. rewrite cut_app by exact E. change (cut r) with r. rewrite A. cbn [r completions flat_map app length]. split; [lia|]. right. split; [reflexivity|]. cbn [quiet_after]. apply B. cbn. constructor.
Qed.
(** So does schedule. *)
Theorem schedule_completes_once i x : x <> Unstarted -> x <> PredErr -> x <> PredStp -> x <> ArgsThrow ->
  ends (schedule_op i x) \/ length (completions (schedule_op i x)) = 1 /\ quiet_after (schedule_op i x).
Proof. intros N1 N2 N3 N4. destruct i, x; try congruence; try (right; split; [reflexivity|cbn; repeat constructor; fail]). left. right. cbn. auto. Qed.

(** ** C57 *)
(** The objects an operation creates are destroyed exactly once, when the operation has completed and has been destroyed: on task_scheduler always,
    on parallel_scheduler if the operation was started and neither it nor its predecessor was stopped or failed first. *)
Definition regular (i : impl) (x : script) : Prop := i = Task \/ x = AllocFail \/ x = PoolStp \/ exists t, x = Run t.
Theorem bulk_no_leak_partial b thr x : possible b thr x -> regular (im b) x -> ~ ends (bulk_op b x) -> im b = Parallel \/ no_throw thr -> proper [] (bulk_op b x) = Some [].
Proof.
  intros P R NE K. unfold bulk_op in *. destruct (im b) eqn:I.
  - destruct K as [K|K]; [discriminate|]. destruct x as [| | | | | | |t]; try reflexivity; [destruct NE; right; cbn; auto|].
    assert (F : Forall (fun e => exists x y, e = ECall x y) t) by (apply (executes_forall P); intros xy; apply body_of'; exact K).
    destruct (@calls_skip t [ED OPool; ECompl Val; ED OInner; ED OPtr; ED OArgs] F) as [_ [_ [C _]]]. cbn. rewrite (proj1 (C _)). reflexivity.
  - destruct R as [R|[->|[->|[t ->]]]]; [discriminate| reflexivity| reflexivity|]. cbn in P. pose proof (executes_calls P I) as F. unfold par_bulk in *. cbn [app cut] in *. set (r := [ED OPool; ED OArgs; ECompl Val]) in *.
    destruct (calls_or_term F) as [T|T].
    + destruct (@cut_calls t r F T) as [A _]. destruct NE. left. right. right. right. right. exact A.
    + destruct (@calls_skip t r T) as [_ [_ [C [_ E]]]]. rewrite cut_app by exact E. change (cut r) with r. cbn. rewrite (proj1 (C _)). reflexivity.
Qed.
Theorem schedule_no_leak_partial i x : regular i x -> ~ ends (schedule_op i x) -> proper [] (schedule_op i x) = Some [].
Proof. intros R NE. destruct i; [destruct x; try reflexivity; destruct NE; right; cbn; auto|]. destruct R as [R|[->|[->|[t ->]]]]; [discriminate| | |]; reflexivity. Qed.
(** Nothing is destroyed that does not exist, and two objects never share the storage, not even in the cases with leaks. *)
Ltac ex := cbn; repeat (split; [let H := fresh in intros H; first [discriminate H | repeat constructor]|]); try exact I.
Theorem objects_are_valid b thr x : possible b thr x -> im b = Parallel \/ no_throw thr ->
  proper [] (bulk_op b x) <> None /\ proper [] (schedule_op (im b) x) <> None /\ (im b = Parallel -> exclusive [] (bulk_op b x) /\ exclusive [] (schedule_op (im b) x)).
Proof.
  intros P K. split; [|split].
  - unfold bulk_op. destruct (im b) eqn:I.
    + destruct K as [K|K]; [discriminate|]. destruct x as [| | | | | | |t]; try discriminate.
      assert (F : Forall (fun e => exists x y, e = ECall x y) t) by (apply (executes_forall P); intros xy; apply body_of'; exact K).
      destruct (@calls_skip t [ED OPool; ECompl Val; ED OInner; ED OPtr; ED OArgs] F) as [_ [_ [C _]]]. cbn. rewrite (proj1 (C _)). discriminate.
    + destruct x as [| | | | | | |t]; try discriminate. cbn in P. pose proof (executes_calls P I) as F. unfold par_bulk in *. cbn [app cut] in *. set (r := [ED OPool; ED OArgs; ECompl Val]) in *.
      destruct (calls_or_term F) as [T|T].
      * destruct (@cut_calls t r F T) as [_ [_ A]]. cbn. rewrite (proj1 (A _)). discriminate.
      * destruct (@calls_skip t r T) as [_ [_ [C [_ E]]]]. rewrite cut_app by exact E. change (cut r) with r. cbn. rewrite (proj1 (C _)). discriminate.
  - destruct (im b), x; discriminate.
  - intros I. rewrite I. split.
    + unfold bulk_op. rewrite I. destruct x as [| | | | | | |t]; try (clear I; ex; fail). cbn in P. pose proof (executes_calls P I) as F. unfold par_bulk in *. cbn [app cut] in *. set (r := [ED OPool; ED OArgs; ECompl Val]) in *.
      assert (X : forall a, exclusive a r -> exclusive a (cut (t ++ r))).
      { intros a A. destruct (calls_or_term F) as [T|T].
        - destruct (@cut_calls t r F T) as [_ [_ B]]. apply B.
        - destruct (@calls_skip t r T) as [_ [_ [C [_ E]]]]. rewrite cut_app by exact E. apply C. exact A. }
      clear I. ex. apply X. ex.
    + clear I. destruct x; ex.
Qed.

(** ** Concrete cases *)
(** 10 items on a machine with parallelism 2: chunks of 2 *)
Example default_chunked_example : default_chunked 1000 2 10 (seq 0 (num_chunks 1000 10 (chunk_size 1000 2 10))) = [(0, 2); (2, 4); (4, 6); (6, 8); (8, 10)].
Proof. reflexivity. Qed.
Example placement_example : placement 1001 64 24 4 = Some 1008%N /\ placement 1001 16 24 4 = None.
Proof. split; vm_compute; reflexivity. Qed.
(** two threads, their calls interleaved *)
Example executes_example : executes (mkb Parallel false true 3) (fun _ => false) [ECall 1 2; ECall 0 1; ECall 2 3].
Proof.
  exists [(0, 1); (1, 2); (2, 3)]. split; [cbn; reflexivity|]. cbn.
  apply (@sh_cons _ [[ECall 0 1]] (ECall 1 2) [] [[ECall 2 3]]). apply (@sh_cons _ [] (ECall 0 1) [] [[]; [ECall 2 3]]). apply (@sh_cons _ [[]; []] (ECall 2 3) [] []).
  apply sh_nil. intros l H. repeat (destruct H as [<-|H]; [reflexivity|]). destruct H.
Qed.

(** ** Refuted statements *)
(** "Every index exactly once": bulk_unchunked(seq, 2, f) on a task_scheduler calls f(0), f(1), f(1), f(2). *)
Theorem task_bulk_sequential_refuted : ~ (forall b thr t, executes b thr t -> no_throw thr -> Permutation (indices (bulk_op b (Run t))) (seq 0 (shape b))).
Proof.
  intros H. assert (E : executes (mkb Task false false 2) (fun _ => false) [ECall 0 1; ECall 1 2; ECall 1 2; ECall 2 3]).
  { exists [(0, 1); (1, 2)]. split; [cbn; reflexivity|]. cbn. apply (@sh_cons _ [] (ECall 0 1) [ECall 1 2] [[ECall 1 2; ECall 2 3]]). apply (@sh_cons _ [] (ECall 1 2) [] [[ECall 1 2; ECall 2 3]]).
    apply (@sh_cons _ [[]] (ECall 1 2) [ECall 2 3] []). apply (@sh_cons _ [[]] (ECall 2 3) [] []). apply sh_nil. intros l X. repeat (destruct X as [<-|X]; [reflexivity|]). destruct X. }
  specialize (H _ _ _ E (fun _ => eq_refl)). apply Permutation_length in H. discriminate.
Qed.
(** ... and bulk_chunked(seq, n, f) on a task_scheduler whose backend uses two chunks calls f(0, n) twice. *)
Theorem task_bulk_chunked_sequential_refuted : ~ (forall b thr t, executes b thr t -> no_throw thr -> chunked b = true -> par b = false -> called t = [(0, shape b)]).
Proof.
  intros H. assert (E : executes (mkb Task true false 2) (fun _ => false) [ECall 0 2; ECall 0 2]).
  { exists [(0, 1); (1, 2)]. split; [split; [cbn; reflexivity|intros _; repeat constructor]|]. cbn. apply (@sh_cons _ [] (ECall 0 2) [] [[ECall 0 2]]). apply (@sh_cons _ [[]] (ECall 0 2) [] []).
    apply sh_nil. intros l X. repeat (destruct X as [<-|X]; [reflexivity|]). destruct X. }
  specialize (H _ _ _ E (fun _ => eq_refl) eq_refl eq_refl). discriminate.
Qed.
(** "The receiver is completed once": if the function throws on a task_scheduler, the receiver gets set_error and, when the
    other items are done, set_value as well. *)
Theorem task_bulk_throw_refuted : ~ (forall b thr x, possible b thr x -> length (completions (bulk_op b x)) <= 1).
Proof.
  intros H. assert (E : executes (mkb Task false true 1) (fun _ => true) [ECall 0 1; ECompl Err]).
  { exists [(0, 1)]. split; [cbn; reflexivity|]. cbn. apply (@sh_cons _ [] (ECall 0 1) [ECompl Err] []). apply (@sh_cons _ [] (ECompl Err) [] []). apply sh_nil. intros l [<-|[]]. reflexivity. }
  specialize (H _ _ (Run _) E). cbn in H. lia.
Qed.
(** "An exception of the function is sent as an error" (the operation advertises set_error_t(exception_ptr)): parallel_scheduler terminates. *)
Theorem parallel_bulk_throw_refuted : ~ (forall b thr t, executes b thr t -> im b = Parallel -> ~ ends (bulk_op b (Run t))).
Proof.
  intros H. assert (E : executes (mkb Parallel false true 1) (fun _ => true) [ECall 0 1; ETerm]).
  { exists [(0, 1)]. split; [cbn; reflexivity|]. cbn. apply (@sh_cons _ [] (ECall 0 1) [ETerm] []). apply (@sh_cons _ [] ETerm [] []). apply sh_nil. intros l [<-|[]]. reflexivity. }
  apply (H _ _ _ E eq_refl). left. cbn. auto 10.
Qed.
(** "Nothing leaks": the reference to the backend of a schedule operation that is stopped before it starts, or never started; the predecessor's
    operation of a bulk operation that is never started or whose predecessor does not send values. *)
Theorem parallel_leak_refuted : ~ (forall i x, ~ ends (schedule_op i x) -> proper [] (schedule_op i x) = Some []) /\
  ~ (forall b x, ~ ends (bulk_op b x) -> proper [] (bulk_op b x) = Some []).
Proof.
  split; intros H.
  - specialize (H Parallel StopReq). cbn in H. discriminate H. intros [X|X]; repeat (destruct X as [X|X]; [discriminate|]); exact X.
  - specialize (H (mkb Parallel true true 1) PredStp). cbn in H. discriminate H. intros [X|X]; repeat (destruct X as [X|X]; [discriminate|]); exact X.
Qed.
(** "Failure to allocate is reported": task_scheduler runs into unreachable code. *)
Theorem task_alloc_refuted : ~ (forall i, ~ In EUB (schedule_op i AllocFail)) /\ ~ (forall b, ~ In EUB (bulk_op b AllocFail)).
Proof. split; intros H; [apply (H Task)|apply (H (mkb Task true true 1))]; cbn; auto. Qed.

(** The signal tells what happened: set_value if everything ran, set_error after a failure of the predecessor, of copying its values or of the allocation, set_stopped after a stop. *)
Definition right_signal (x : script) (c : sig) : Prop :=
  match x with
  | PredErr | ArgsThrow | AllocFail => c = Err
  | PredStp | StopReq | PoolStp => c = Stp
  | Run _ => c = Val
  | Unstarted => False
  end.
Theorem bulk_right_signal b thr x c : possible b thr x -> no_throw thr -> In c (completions (bulk_op b x)) -> right_signal x c.
Proof.
  intros P N. unfold bulk_op. destruct x as [| | | | | | |t]; try (destruct (im b); cbn; intuition congruence).
  cbn in P. assert (F : Forall (fun e => exists x y, e = ECall x y) t) by (apply (executes_forall P); intros xy; apply body_of'; exact N).
  assert (C : forall l r, Forall (fun e => exists x y, e = ECall x y) l -> completions (l ++ r) = completions r /\ cut (l ++ r) = l ++ cut r).
  { induction l as [|e l IH]; cbn; auto. intros r F0. inversion F0 as [|e0 l0 [x [y ->]] F1]; subst. destruct (IH r F1) as [A B]. split; [exact A|cbn; rewrite B; auto]. }
  destruct (im b); unfold task_bulk, par_bulk.
  - change (In c (completions (t ++ [ED OPool; ECompl Val; ED OInner; ED OPtr; ED OArgs])) -> c = Val). rewrite (proj1 (C t _ F)). cbn. intuition congruence.
  - change (In c (completions (cut (t ++ [ED OPool; ED OArgs; ECompl Val]))) -> c = Val). rewrite (proj2 (C t _ F)), (proj1 (C t _ F)). cbn. intuition congruence.
Qed.
Theorem schedule_right_signal i x c : In c (completions (schedule_op i x)) -> right_signal x c.
Proof. destruct i, x; cbn; intuition congruence. Qed.
