(** * SenderProperties: the theorems about the sender algebra cited by the manifest.
    The model is SenderModel.v, the vocabulary SenderSpec.v; every proof here is [exact]. *)

From Coq Require Import List Arith Bool Lia.
From Verif Require Import SenderModel SenderSpec SenderProofs SenderSafety SenderRun SenderLaws SenderFacts.
Import ListNotations.
Set Implicit Arguments.

(** ** C01: at most one completion; exactly one once no leaf operation is outstanding *)
Theorem at_most_one_completion s e ctx evs r :
  wt s -> run (start e ctx s) evs r -> length (r_calls r) <= 1.
Proof. exact (@facts_at_most_one s e ctx evs r). Qed.
Print Assumptions at_most_one_completion.

Theorem exactly_one_completion s e ctx evs r :
  wt s -> run (start e ctx s) evs r ->
  (forall p, leaf_at (r_op r) p = None) -> exists c, r_calls r = [c].
Proof. exact (@facts_exactly_one s e ctx evs r). Qed.
Print Assumptions exactly_one_completion.

(** ** C02: structured concurrency *)
Theorem completed_means_quiescent s e ctx evs r :
  wt s -> run (start e ctx s) evs r -> r_calls r <> [] ->
  (forall p, leaf_at (r_op r) p = None) /\
  (forall evs' r', run r evs' r' -> r_calls r' = r_calls r /\ r_obs r' = r_obs r).
Proof. exact (@facts_quiescent s e ctx evs r). Qed.
Print Assumptions completed_means_quiescent.

Theorem not_completed_means_running s e ctx evs r :
  wt s -> run (start e ctx s) evs r -> r_calls r = [] ->
  exists p k, leaf_at (r_op r) p = Some k /\
    forall c, leaf_may k c -> exists r', run r [EComplete p c] r'.
Proof. exact (@facts_running s e ctx evs r). Qed.
Print Assumptions not_completed_means_running.

Theorem no_undefined_behaviour s e ctx evs r :
  wt s -> run (start e ctx s) evs r -> ~ In OUb (r_obs r).
Proof. exact (@facts_no_ub s e ctx evs r). Qed.
Print Assumptions no_undefined_behaviour.

(** ** C03: completions conform to the computed signatures.  Partial: [wt] asks that [finally]'s
    error datums copy without throwing and that [repeat_n] is not used with a zero count over a
    sender without value completion; without these the claim is false (below). *)
Theorem completion_signatures_sound_partial s e ctx evs r :
  wt s -> run (start e ctx s) evs r -> forall c, In c (r_calls r) -> conforms (csigs s) (fst c).
Proof. exact (@facts_sound s e ctx evs r). Qed.
Print Assumptions completion_signatures_sound_partial.

Theorem repeat_n_zero_signature_refuted :
  exists s e ctx c, wt s /\
    let z := RepeatN (fun _ => None) (fun _ => None) (fun _ => None) true 0 s in
    r_calls (start e ctx z) = [c] /\ ~ conforms (csigs z) (fst c).
Proof. exact facts_repeat_n_zero. Qed.
Print Assumptions repeat_n_zero_signature_refuted.

Theorem finally_error_copy_signature_refuted :
  exists s1 s2 cp e ctx c, wt s1 /\ wt s2 /\ cp_ok cp (csigs s1) /\
    r_calls (start e ctx (Finally cp s1 s2)) = [c] /\
    ~ conforms (csigs (Finally cp s1 s2)) (fst c).
Proof. exact facts_finally_sig. Qed.
Print Assumptions finally_error_copy_signature_refuted.

(** ** C04: then / upon_error / upon_stopped *)
Theorem then_calls_function_on_its_channel k fid ft f s e ctx evs r :
  wt (Fun k fid ft f s) -> run (start e ctx (Fun k fid ft f s)) evs r ->
  exists r1, run (start e ctx s) evs r1 /\
  match r_calls r1 with
  | [] => r_calls r = [] /\ r_obs r = r_obs r1
  | (c, x) :: _ =>
      if chan_eqb (compl_chan c) k then
        r_obs r = r_obs r1 ++ [OCall fid (compl_args c)] /\
        r_calls r = [(match f (compl_args c) with FRet vs => Val vs | FThrow ex => Err (VEptr ex) end, x)]
      else r_obs r = r_obs r1 /\ r_calls r = [(c, x)]
  end.
Proof. exact (@fun_law k fid ft f s e ctx evs r). Qed.
Print Assumptions then_calls_function_on_its_channel.

(** ** C05: let_* *)
Theorem let_runs_the_produced_sender k fid lt thr f s e ctx evs r :
  wt (Let k fid lt thr f s) -> run (start e ctx (Let k fid lt thr f s)) evs r ->
  exists evs1 evs2 r1, evs = evs1 ++ evs2 /\ run (start e ctx s) evs1 r1 /\
    match r_calls r1 with
    | [] => evs2 = [] /\ r_calls r = [] /\ r_obs r = r_obs r1
    | (c, x) :: _ =>
        if chan_eqb (compl_chan c) k then
          match thr (compl_args c) with
          | Some ex => r_calls r = [(Err (VEptr ex), x)] /\
                       r_obs r = r_obs r1 ++ [OCall fid (compl_args c)]
          | None => exists r2, run (start (env_after e evs1) x (f (compl_args c))) evs2 r2 /\
                      r_calls r = r_calls r2 /\
                      r_obs r = r_obs r1 ++ [OCall fid (compl_args c)] ++ r_obs r2
          end
        else r_calls r = [(c, x)] /\ r_obs r = r_obs r1
    end.
Proof. exact (@let_law k fid lt thr f s e ctx evs r). Qed.
Print Assumptions let_runs_the_produced_sender.

(** ** C10: sequence *)
Theorem sequence_runs_one_after_another cthr cnt s1 s2 e ctx evs r :
  wt (Seq cthr cnt s1 s2) -> run (start e ctx (Seq cthr cnt s1 s2)) evs r ->
  exists evs1 evs2 r1, evs = evs1 ++ evs2 /\ run (start e ctx s1) evs1 r1 /\
    match r_calls r1 with
    | [] => evs2 = [] /\ r_calls r = [] /\ r_obs r = r_obs r1
    | (Val _, x) :: _ =>
        match cthr with
        | Some ex => r_calls r = [(Err (VEptr ex), x)] /\ r_obs r = r_obs r1
        | None => exists r2, run (start (env_after e evs1) x s2) evs2 r2 /\
                    r_calls r = r_calls r2 /\ r_obs r = r_obs r1 ++ r_obs r2
        end
    | (c, x) :: _ => r_calls r = [(c, x)] /\ r_obs r = r_obs r1
    end.
Proof. exact (@seq_law cthr cnt s1 s2 e ctx evs r). Qed.
Print Assumptions sequence_runs_one_after_another.

(** ** C09: finally.  Partial: when copying s1's result throws, s2 never runs (the left disjunct;
    refuted as a full statement below). *)
Theorem finally_runs_cleanup_and_replays_partial cp s1 s2 e ctx evs r :
  wt (Finally cp s1 s2) -> run (start e ctx (Finally cp s1 s2)) evs r ->
  exists evs1 evs2 r1, evs = evs1 ++ evs2 /\ run (start e ctx s1) evs1 r1 /\
    match r_calls r1 with
    | [] => evs2 = [] /\ r_calls r = [] /\ r_obs r = r_obs r1
    | (c, x) :: _ =>
        live (r_op r1) = false /\
        ((exists ex, sends KVal (csigs s2) = true /\ cp c = Some ex /\
            r_calls r = [(Err (VEptr ex), x)] /\ r_obs r = r_obs r1) \/
         ((sends KVal (csigs s2) = true -> cp c = None) /\
          exists r2, run (start (env_after e evs1) x s2) evs2 r2 /\
            r_obs r = r_obs r1 ++ r_obs r2 /\
            r_calls r = map (fun c2 => (match fst c2 with Val _ => c | _ => fst c2 end, snd c2))
                            (r_calls r2)))
    end.
Proof. exact (@finally_law cp s1 s2 e ctx evs r). Qed.
Print Assumptions finally_runs_cleanup_and_replays_partial.

Theorem finally_cleanup_always_runs_refuted :
  exists cp s1 s2 e ctx r, wt (Finally cp s1 s2) /\ run (start e ctx (Finally cp s1 s2)) [] r /\
    (forall e' ctx', r_obs (start e' ctx' s2) <> []) /\ r_calls r <> [] /\ r_obs r = [].
Proof. exact facts_finally_skips. Qed.
Print Assumptions finally_cleanup_always_runs_refuted.

(** ** C08: schedulers *)
Theorem continues_on_transfers cp sch sg s e ctx evs r :
  wt (ContinuesOn cp sch sg s) -> run (start e ctx (ContinuesOn cp sch sg s)) evs r ->
  exists evs1 evs2 r1, evs = evs1 ++ evs2 /\ run (start e ctx s) evs1 r1 /\ r_obs r = r_obs r1 /\
    match r_calls r1 with
    | [] => evs2 = [] /\ r_calls r = []
    | (c, x) :: _ =>
        match cp c with
        | Some ex => r_calls r = [(Err (VEptr ex), x)]
        | None =>
            r_calls r = [] \/ r_calls r = [(c, sch)] \/
            exists c' y, r_calls r = [(c', y)] /\ conforms (drop_vals sg) c'
        end
    end.
Proof. exact (@continues_on_law cp sch sg s e ctx evs r). Qed.
Print Assumptions continues_on_transfers.

Theorem continues_on_value_on_scheduler cp sch sg s e ctx evs r vs y :
  wt (ContinuesOn cp sch sg s) -> run (start e ctx (ContinuesOn cp sch sg s)) evs r ->
  In (Val vs, y) (r_calls r) -> y = sch.
Proof. exact (@facts_continues_on_value cp sch sg s e ctx evs r vs y). Qed.
Print Assumptions continues_on_value_on_scheduler.

Theorem starts_on_starts_on_scheduler cthr cnt sch sg s e ctx evs r :
  wt (StartsOn cthr cnt sch sg s) -> run (start e ctx (StartsOn cthr cnt sch sg s)) evs r ->
  exists evs1 evs2, evs = evs1 ++ evs2 /\
    ((evs2 = [] /\ r_calls r = [] /\ r_obs r = []) \/
     (exists c y, r_calls r = [(c, y)] /\ conforms (drop_vals sg) c /\ r_obs r = []) \/
     (exists ex, cthr = Some ex /\ r_calls r = [(Err (VEptr ex), sch)] /\ r_obs r = []) \/
     (exists r2, cthr = None /\
        run (start {| e_stop := e_stop (env_after e evs1); e_sch := sch |} sch s) evs2 r2 /\
        r_calls r = r_calls r2 /\ r_obs r = r_obs r2)).
Proof. exact (@starts_on_law cthr cnt sch sg s e ctx evs r). Qed.
Print Assumptions starts_on_starts_on_scheduler.

Theorem on_starts_there_and_returns cp cthr cnt sch sg oldsg s e ctx evs r :
  wt (On cp cthr cnt sch sg oldsg s) -> run (start e ctx (On cp cthr cnt sch sg oldsg s)) evs r ->
  (forall vs y, In (Val vs, y) (r_calls r) -> y = e_sch e) /\
  exists evs0 evs3 r0, evs = evs0 ++ evs3 /\ run (start e ctx (StartsOn cthr cnt sch sg s)) evs0 r0 /\
    r_obs r = r_obs r0 /\
    (r_calls r0 = [] -> r_calls r = [] /\ evs3 = []).
Proof. exact (@facts_on cp cthr cnt sch sg oldsg s e ctx evs r). Qed.
Print Assumptions on_starts_there_and_returns.

(** an error whose copy throws is delivered on the old context *)
Theorem continues_on_error_on_scheduler_refuted :
  exists cp sch sg s e ctx r x y, wt (ContinuesOn cp sch sg s) /\
    run (start e ctx (ContinuesOn cp sch sg s)) [] r /\
    sg = [] /\ r_calls r = [(Err x, y)] /\ y <> sch.
Proof. exact facts_continues_on_err. Qed.
Print Assumptions continues_on_error_on_scheduler_refuted.

(** ** C11: repeat_until / repeat_n *)
Theorem repeat_until_iterates cthr cthr2 cp cnt s e ctx evs r :
  wt (RepeatUntil cthr cthr2 cp cnt s) ->
  run (start e ctx (RepeatUntil cthr cthr2 cp cnt s)) evs r ->
  rep_spec cthr cthr2 cp cnt s 0 e ctx evs (r_calls r) (r_obs r).
Proof. exact (@repeat_until_law cthr cthr2 cp cnt s e ctx evs r). Qed.
Print Assumptions repeat_until_iterates.

Theorem repeat_n_iterates cthr cthr2 cp cnt n s e ctx evs r :
  wt (RepeatN cthr cthr2 cp cnt n s) ->
  run (start e ctx (RepeatN cthr cthr2 cp cnt n s)) evs r ->
  repn_spec cthr cthr2 cp cnt s n e ctx evs (r_calls r) (r_obs r).
Proof. exact (@repeat_n_law cthr cthr2 cp cnt n s e ctx evs r). Qed.
Print Assumptions repeat_n_iterates.

(** ** C12: channel translation *)
Theorem into_variant_translates cp s e ctx evs r :
  wt s -> run (start e ctx (IntoVariant cp s)) evs r ->
  exists r1, run (start e ctx s) evs r1 /\ r_obs r = r_obs r1 /\
    match r_calls r1 with
    | [] => r_calls r = []
    | (Val vs, x) :: _ =>
        r_calls r = [(match cp vs with None => Val [VVar vs] | Some ex => Err (VEptr ex) end, x)]
    | (c, x) :: _ => r_calls r = [(c, x)]
    end.
Proof. exact (@into_variant_law cp s e ctx evs r). Qed.
Print Assumptions into_variant_translates.

Theorem stopped_as_optional_translates cp s e ctx evs r :
  wt (StoppedAsOptional cp s) -> run (start e ctx (StoppedAsOptional cp s)) evs r ->
  exists r1, run (start e ctx s) evs r1 /\ r_obs r = r_obs r1 /\
    match r_calls r1 with
    | [] => r_calls r = []
    | (Val vs, x) :: _ =>
        exists v, vs = [v] /\
        r_calls r = [(match cp vs with None => Val [VOpt (Some v)] | Some ex => Err (VEptr ex) end, x)]
    | (Stop, x) :: _ => r_calls r = [(Val [VOpt None], x)]
    | (Err ex, x) :: _ => r_calls r = [(Err ex, x)]
    end.
Proof. exact (@stopped_as_optional_law cp s e ctx evs r). Qed.
Print Assumptions stopped_as_optional_translates.

Theorem stopped_as_error_translates fid t x0 nothr thr s e ctx evs r :
  wt s -> has_ty x0 t -> (nothr = true -> thr = None) ->
  run (start e ctx (stopped_as_error fid t x0 nothr thr s)) evs r ->
  exists r1 evs1 evs2, evs = evs1 ++ evs2 /\ run (start e ctx s) evs1 r1 /\
    match r_calls r1 with
    | [] => evs2 = [] /\ r_calls r = []
    | (Stop, x) :: _ => r_calls r = [(Err (match thr with None => x0 | Some ex => VEptr ex end), x)]
    | (c, x) :: _ => r_calls r = [(c, x)]
    end.
Proof. exact (@facts_stopped_as_error fid t x0 nothr thr s e ctx evs r). Qed.
Print Assumptions stopped_as_error_translates.

(** ** C37, sequential part: bulk *)
Theorem bulk_calls_each_index_once fid n fnt f s e ctx evs r :
  wt s -> run (start e ctx (Bulk fid n fnt f s)) evs r ->
  exists r1, run (start e ctx s) evs r1 /\
    match r_calls r1 with
    | [] => r_calls r = [] /\ r_obs r = r_obs r1
    | (Val vs, x) :: _ =>
        exists out t, bulk_calls fid f vs 0 n out t /\ r_obs r = r_obs r1 ++ t /\
          r_calls r = [(match out with None => Val vs | Some ex => Err (VEptr ex) end, x)] /\
          (out = None -> t = map (OIndex fid) (seq 0 n))
    | (c, x) :: _ => r_calls r = [(c, x)] /\ r_obs r = r_obs r1
    end.
Proof. exact (@bulk_law fid n fnt f s e ctx evs r). Qed.
Print Assumptions bulk_calls_each_index_once.

(** ** The hypotheses are met by non-trivial expressions *)
Definition ex_env : env := {| e_stop := false; e_sch := 0 |}.
Definition ex_ft : fty := {| f_ret := fun _ => [TBase 1 true]; f_nothrow := fun _ => false |}.
Definition ex_f (vs : list val) : fres :=
  match vs with [VBase 1 _ 0] => FThrow 9 | _ => FRet [VBase 1 true 5] end.
Definition ex_lt : lty := {| l_sigs := fun _ => [SVal [TBase 2 true]; SStop]; l_nothrow := fun _ => false |}.
(** when_all(leaf 1 | then f, leaf 2 | let_value(v -> leaf 3)) |> finally(leaf 4) |> continues_on(7) *)
Definition ex_sender : sender :=
  ContinuesOn (fun _ => None) 7 [SStop]
   (Finally (fun _ => None)
     (WhenAll (fun _ _ => None)
       [Fun KVal 1 ex_ft ex_f (Leaf 1 [SVal [TBase 1 true]; SErr TEptr]);
        Let KVal 2 ex_lt (fun _ => None) (fun _ => Leaf 3 [SVal [TBase 2 true]; SStop])
            (Leaf 2 [SVal []])])
     (Leaf 4 [SVal []])).

Example ex_sender_wt : wt ex_sender.
Proof.
  simpl. repeat split; try (intros; discriminate); try (cbv; lia).
  - intros s vs [<-|[<-|[]]] Hk Hvs; simpl in *; try discriminate.
    destruct (ex_f vs) eqn:E; auto. unfold ex_f in E.
    assert (vs0 = [VBase 1 true 5]).
    { destruct vs as [|[? ? [|]| | | |] [|]]; try destruct n as [|[|]]; congruence. }
    subst. repeat constructor.
  - apply incl_refl.
Qed.

(** leaf 2 finishes, then leaf 1, then the function's sender (leaf 3), then the cleanup, then the
    scheduler: one completion with the values in argument order, on context 7 *)
Example ex_sender_runs :
  exists r, run (start ex_env 0 ex_sender)
              [EComplete [1] (Val [], 20); EComplete [0] (Val [VBase 1 true 4], 10);
               EComplete [1] (Val [VBase 2 true 6], 30); EComplete [] (Val [], 40);
               EComplete [] (Val [], 7)] r /\
    r_calls r = [(Val [VBase 1 true 5; VBase 2 true 6], 7)] /\
    r_obs r = [OStart 1 0 false; OStart 2 0 false; OCall 2 []; OStart 3 20 false;
               OCall 1 [VBase 1 true 4]; OStart 4 30 false].
Proof.
  eexists. split.
  - econstructor; [simpl; eexists; split; [reflexivity|]; exists (SVal []); simpl; auto|reflexivity|].
    econstructor; [simpl; eexists; split; [reflexivity|]; exists (SVal [TBase 1 true]); simpl;
                   repeat constructor|reflexivity|].
    econstructor; [simpl; eexists; split; [reflexivity|]; exists (SVal [TBase 2 true]); simpl;
                   repeat constructor|reflexivity|].
    econstructor; [simpl; eexists; split; [reflexivity|]; exists (SVal []); simpl; auto|reflexivity|].
    econstructor; [simpl; eexists; split; [reflexivity|]; left; auto|reflexivity|].
    constructor.
  - simpl. auto.
Qed.
