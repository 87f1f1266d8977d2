(** * SenderFacts: the lemmas behind SenderProperties that are not adaptor laws. *)

From Coq Require Import List Arith Bool Lia.
From Verif Require Import SenderModel SenderSpec SenderProofs SenderSafety SenderRun SenderLaws.
Import ListNotations.
Set Implicit Arguments.

Section Facts.
  Variables (s : sender) (e : env) (ctx : nat) (evs : list event) (r : res).
  Hypothesis Hw : wt s.
  Hypothesis Hr : run (start e ctx s) evs r.

  Lemma facts_at_most_one : length (r_calls r) <= 1.
  Proof.
    destruct (run_start_ok Hw Hr) as [_ [(Hc & _)|(c & Hc & _)]]; rewrite Hc; simpl; lia.
  Qed.

  Lemma facts_exactly_one : (forall p, leaf_at (r_op r) p = None) -> exists c, r_calls r = [c].
  Proof.
    intros Hp. destruct (run_start_ok Hw Hr) as [_ [(Hc & Hl & _)|(c & Hc & _)]]; eauto.
    apply live_leaf in Hl. destruct Hl as (p & k & E). rewrite Hp in E. discriminate.
  Qed.

  Lemma facts_quiescent : r_calls r <> [] ->
    (forall p, leaf_at (r_op r) p = None) /\
    (forall evs' r', run r evs' r' -> r_calls r' = r_calls r /\ r_obs r' = r_obs r).
  Proof.
    intros Hc0. destruct (run_start_ok Hw Hr) as [_ [(Hc & Hl & _)|(c & Hc & _ & Hl)]]; [congruence|].
    split.
    - intros p. destruct (leaf_at (r_op r) p) eqn:E; auto. apply leaf_live in E. congruence.
    - intros evs' r' Hr'. destruct (run_dead Hr') as (_ & A & B & _); auto.
  Qed.

  Lemma facts_running : r_calls r = [] ->
    exists p k, leaf_at (r_op r) p = Some k /\
      forall c, leaf_may k c -> exists r', run r [EComplete p c] r'.
  Proof.
    intros Hc0. destruct (run_start_ok Hw Hr) as [_ [(Hc & Hl & _)|(c & Hc & _ & Hl)]]; [|congruence].
    apply live_leaf in Hl. destruct Hl as (p & k & E). exists p, k. split; auto.
    intros c Hm. destruct (@step_total (r_op r) p k c E) as (r1 & E1).
    eexists. econstructor; [simpl; eauto|exact E1|constructor].
  Qed.

  Lemma facts_no_ub : ~ In OUb (r_obs r).
  Proof. exact (proj1 (run_start_ok Hw Hr)). Qed.

  Lemma facts_sound : forall c, In c (r_calls r) -> conforms (csigs s) (fst c).
  Proof.
    intros c Hin. destruct (run_start_ok Hw Hr) as [_ [(Hc & _)|(c' & Hc & Hcf & _)]]; rewrite Hc in Hin.
    - destruct Hin.
    - destruct Hin as [<-|[]]. auto.
  Qed.
End Facts.

Lemma facts_repeat_n_zero :
  exists s e ctx c, wt s /\
    let z := RepeatN (fun _ => None) (fun _ => None) (fun _ => None) true 0 s in
    r_calls (start e ctx z) = [c] /\ ~ conforms (csigs z) (fst c).
Proof.
  exists JustStopped, {| e_stop := false; e_sch := 0 |}, 0, (Val [], 0). simpl. split; auto.
  split; auto. intros (s & Hin & Hm). simpl in Hin.
  intuition; subst; simpl in Hm; auto.
Qed.

Lemma facts_finally_sig :
  exists s1 s2 cp e ctx c, wt s1 /\ wt s2 /\ cp_ok cp (csigs s1) /\
    r_calls (start e ctx (Finally cp s1 s2)) = [c] /\
    ~ conforms (csigs (Finally cp s1 s2)) (fst c).
Proof.
  exists (JustError (TBase 7 false) (VBase 7 false 1)), (Just [] []), (fun _ => Some 3),
    {| e_stop := false; e_sch := 0 |}, 0, (Err (VEptr 3), 0).
  simpl. split; [constructor|]. split; [constructor|]. split; [|split; auto].
  - intros c e (s & Hin & Hm) _. exists s. split; auto. split; auto.
    simpl in Hin. destruct Hin as [<-|[]]. auto.
  - intros (s & Hin & Hm). simpl in Hin. destruct Hin as [<-|[]]. simpl in Hm. inversion Hm.
Qed.

Lemma facts_finally_skips :
  exists cp s1 s2 e ctx r, wt (Finally cp s1 s2) /\ run (start e ctx (Finally cp s1 s2)) [] r /\
    (forall e' ctx', r_obs (start e' ctx' s2) <> []) /\ r_calls r <> [] /\ r_obs r = [].
Proof.
  exists (fun _ => Some 3), (Just [TBase 7 false] [VBase 7 false 1]), (Leaf 5 [SVal []]),
    {| e_stop := false; e_sch := 0 |}, 0. eexists. split; [|split; [constructor|]].
  - simpl. split; [repeat constructor|]. split; auto.
    intros c e (s & Hin & Hm) _. simpl in Hin. destruct Hin as [<-|[]].
    exists [TBase 7 false]. simpl. auto.
  - simpl. repeat split; try (intros; discriminate); auto.
Qed.

Lemma facts_continues_on_value cp sch sg s e ctx evs r vs y :
  wt (ContinuesOn cp sch sg s) -> run (start e ctx (ContinuesOn cp sch sg s)) evs r ->
  In (Val vs, y) (r_calls r) -> y = sch.
Proof.
  intros Hw Hr Hin. destruct (@continues_on_law _ _ _ _ _ _ _ _ Hw Hr) as (evs1 & evs2 & r1 & -> & Hr1 & _ & H).
  destruct (r_calls r1) as [|[c x] ?].
  - destruct H as [_ H]. rewrite H in Hin. destruct Hin.
  - destruct (cp c).
    + rewrite H in Hin. destruct Hin as [E|[]]. discriminate.
    + destruct H as [H|[H|(c' & z & H & (sx & Hs & Hm))]]; rewrite H in Hin.
      * destruct Hin.
      * destruct Hin as [E|[]]. congruence.
      * destruct Hin as [E|[]]. injection E as -> ->. exfalso.
        unfold drop_vals in Hs. apply filter_In in Hs. destruct Hs as [_ Hs].
        destruct sx; simpl in *; auto. discriminate.
Qed.

Lemma facts_on cp cthr cnt sch sg oldsg s e ctx evs r :
  wt (On cp cthr cnt sch sg oldsg s) -> run (start e ctx (On cp cthr cnt sch sg oldsg s)) evs r ->
  (forall vs y, In (Val vs, y) (r_calls r) -> y = e_sch e) /\
  exists evs0 evs3 r0, evs = evs0 ++ evs3 /\ run (start e ctx (StartsOn cthr cnt sch sg s)) evs0 r0 /\
    r_obs r = r_obs r0 /\
    (r_calls r0 = [] -> r_calls r = [] /\ evs3 = []).
Proof.
  intros (Hw & Hcn & Hcp) Hr. rewrite on_is_continues_on in Hr.
  assert (Hw' : wt (ContinuesOn cp (e_sch e) oldsg (StartsOn cthr cnt sch sg s))).
  { simpl. auto. }
  split.
  - intros vs y Hin. eapply facts_continues_on_value; eauto.
  - destruct (@continues_on_law _ _ _ _ _ _ _ _ Hw' Hr) as (evs1 & evs2 & r1 & -> & Hr1 & Ho & H).
    exists evs1, evs2, r1. split; auto. split; auto. split; auto.
    intros E. rewrite E in H. tauto.
Qed.

Lemma facts_continues_on_err :
  exists cp sch sg s e ctx r x y, wt (ContinuesOn cp sch sg s) /\
    run (start e ctx (ContinuesOn cp sch sg s)) [] r /\
    sg = [] /\ r_calls r = [(Err x, y)] /\ y <> sch.
Proof.
  exists (fun _ => Some 3), 8, [], (Just [TBase 7 false] [VBase 7 false 1]),
    {| e_stop := false; e_sch := 0 |}, 0. eexists. exists (VEptr 3), 0.
  split; [|split; [constructor|]].
  - simpl. split; [repeat constructor|].
    intros c e (s & Hin & Hm) _. simpl in Hin. destruct Hin as [<-|[]].
    exists (SVal [TBase 7 false]). simpl. auto.
  - simpl. auto.
Qed.

(** stopped_as_error(s, err) is let_stopped(s, [err] { return just_error(err); })
    (stdexec/__detail/__stopped_as_error.hpp L123-129); [thr]: moving err throws, [nothr]: the
    lambda is noexcept (__nothrow_move_constructible) *)
Definition stopped_as_error (fid : nat) (t : ty) (x : val) (nothr : bool) (thr : option nat) (s : sender)
  : sender :=
  Let KStop fid {| l_sigs := fun _ => [SErr t]; l_nothrow := fun _ => nothr |} (fun _ => thr)
      (fun _ => JustError t x) s.

Lemma facts_stopped_as_error fid t x0 nothr thr s e ctx evs r :
  wt s -> has_ty x0 t -> (nothr = true -> thr = None) ->
  run (start e ctx (stopped_as_error fid t x0 nothr thr s)) evs r ->
  exists r1 evs1 evs2, evs = evs1 ++ evs2 /\ run (start e ctx s) evs1 r1 /\
    match r_calls r1 with
    | [] => evs2 = [] /\ r_calls r = []
    | (Stop, x) :: _ => r_calls r = [(Err (match thr with None => x0 | Some ex => VEptr ex end), x)]
    | (c, x) :: _ => r_calls r = [(c, x)]
    end.
Proof.
  intros Hw Ht Hn Hr.
  assert (Hw' : wt (stopped_as_error fid t x0 nothr thr s)).
  { simpl. split; auto. intros sg vs _ _ _. split.
    - intros ex E. destruct nothr; auto. rewrite Hn in E; congruence.
    - split; auto. apply incl_refl. }
  destruct (@let_law _ _ _ _ _ _ _ _ _ _ Hw' Hr) as (evs1 & evs2 & r1 & -> & Hr1 & H).
  exists r1, evs1, evs2. split; auto. split; auto.
  destruct (r_calls r1) as [|[[vs|v|] x] ?]; simpl in H; try tauto.
  destruct thr; [tauto|].
  destruct H as (r2 & Hr2 & A & _). rewrite A.
  destruct (run_dead Hr2) as (_ & B & _); auto.
Qed.
