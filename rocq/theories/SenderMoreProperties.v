(** * SenderMoreProperties: when_all, when_any, stop propagation, algebraic laws.
    The model is SenderModel.v, the vocabulary SenderSpec.v; every proof here is [exact].
    [node_log] (SenderWhen.v) is what happened at the node, in order: [AChild i c] child i
    completed with call c, [AStop] the parent requested stop. *)

From Coq Require Import List Arith Bool Lia.
From Verif Require Import SenderModel SenderSpec SenderProofs SenderSafety SenderRun SenderLaws
  SenderWhen SenderStop SenderAny SenderWhenFacts SenderEquiv SenderProperties.
Import ListNotations.
Set Implicit Arguments.

(** ** C06: a value completion of when_all is the concatenation of the children's values in
    argument order *)
Theorem when_all_concatenates_in_argument_order cp ss e ctx evs r vs x :
  wt (WhenAll cp ss) -> run (start e ctx (WhenAll cp ss)) evs r ->
  In (Val vs, x) (r_calls r) ->
  exists vss, vs = concat vss /\
    Forall2 (fun s vi => exists ri xi, child_run ctx s ri /\ r_calls ri = [(Val vi, xi)]) ss vss.
Proof. exact (@facts_when_all_value cp ss e ctx evs r vs x). Qed.
Print Assumptions when_all_concatenates_in_argument_order.

(** ... and it does complete with the values when every child does (no copy throws, no stop) *)
Theorem when_all_all_values cp ss e ctx evs r :
  wt (WhenAll cp ss) -> run (start e ctx (WhenAll cp ss)) evs r -> e_stop e = false -> no_stop evs ->
  exists rs, Forall2 (child_run ctx) ss rs /\
    forall vss, Forall2 (fun ri vi => exists xi, r_calls ri = [(Val vi, xi)]) rs vss ->
      (forall i vi, nth_error vss i = Some vi -> cp i (Val vi) = None) ->
      exists x, r_calls r = [(Val (concat vss), x)].
Proof. exact (@facts_when_all_all_values cp ss e ctx evs r). Qed.
Print Assumptions when_all_all_values.

(** ** C06/C07: the complete law of when_all *)
Theorem when_all_follows_its_log cp ss e ctx evs r :
  wt (WhenAll cp ss) -> run (start e ctx (WhenAll cp ss)) evs r ->
  exists rs log,
    node_log ctx e (ws_uses (wa_static cp ss) && e_stop e) ss evs rs log /\
    (forall i, i < length ss ->
       exists ri, nth_error rs i = Some ri /\
         forall c, In (AChild i c) log <-> r_calls ri = [c]) /\
    r_calls r = (if done_count log =? length ss
                 then [(when_all_result cp ss log, last_ctx ctx log)] else []).
Proof. exact (@when_all_law cp ss e ctx evs r). Qed.
Print Assumptions when_all_follows_its_log.

(** ** C07: the first error to arrive is reported; only-stopped children give set_stopped *)
Theorem when_all_first_failure cp ss e ctx evs r :
  wt (WhenAll cp ss) -> run (start e ctx (WhenAll cp ss)) evs r ->
  exists rs log, node_log ctx e (ws_uses (wa_static cp ss) && e_stop e) ss evs rs log /\
    (forall l1 l2 i v x, log = l1 ++ AChild i (Err v, x) :: l2 ->
       (forall j c y, In (AChild j (c, y)) l1 -> match c with Err _ => False | _ => cp j c = None end) ->
       forall c, In c (r_calls r) -> fst c = Err (match cp i (Err v) with None => v | Some ex => VEptr ex end)) /\
    (forall v x, In (Err v, x) (r_calls r) ->
       exists i c y, In (AChild i (c, y)) log /\
         (match c with Err v' => v = match cp i c with None => v' | Some ex => VEptr ex end
                     | _ => exists ex, cp i c = Some ex /\ v = VEptr ex end)) /\
    (forall x, In (Stop, x) (r_calls r) ->
       (exists i y, In (AChild i (Stop, y)) log) \/ In AStop log) /\
    ((exists i y, In (AChild i (Stop, y)) log) ->
       (forall i c y, In (AChild i (c, y)) log -> match c with Err _ => False | _ => cp i c = None end) ->
       forall c, In c (r_calls r) -> fst c = Stop).
Proof. exact (@facts_when_all_first_error cp ss e ctx evs r). Qed.
Print Assumptions when_all_first_failure.

Theorem when_all_failure_asks_siblings_to_stop cp ss e ctx evs r :
  wt (WhenAll cp ss) -> run (start e ctx (WhenAll cp ss)) evs r ->
  exists rs log,
    node_log ctx e (ws_uses (wa_static cp ss) && e_stop e) ss evs rs log /\
    (failure cp ss log ->
     forall p k, leaf_at (r_op r) p = Some k -> shielded (r_op r) p = false -> leaf_stopped k = true).
Proof. exact (@when_all_failure_stops_siblings cp ss e ctx evs r). Qed.
Print Assumptions when_all_failure_asks_siblings_to_stop.

(** ** C35 (event-level part): when_any *)
Theorem when_any_first_result cp ss e ctx evs r :
  wt (WhenAny cp ss) -> run (start e ctx (WhenAny cp ss)) evs r ->
  if e_stop e then r_calls r = [(Stop, ctx)] /\ r_obs r = []
  else exists rs log,
    node_log ctx e false ss evs rs log /\
    (forall i, i < length ss -> exists ri, nth_error rs i = Some ri /\
       forall c, In (AChild i c) log <-> r_calls ri = [c]) /\
    (if done_count log =? length ss
     then exists c, when_any_result cp log = Some c /\ r_calls r = [(c, last_ctx ctx log)]
     else r_calls r = []).
Proof. exact (@when_any_law cp ss e ctx evs r). Qed.
Print Assumptions when_any_first_result.

Theorem when_any_winner_asks_others_to_stop cp ss e ctx evs r :
  wt (WhenAny cp ss) -> run (start e ctx (WhenAny cp ss)) evs r -> e_stop e = false ->
  exists rs log, node_log ctx e false ss evs rs log /\
    (forall i c, In (AChild i c) log ->
       forall p k, leaf_at (r_op r) p = Some k -> shielded (r_op r) p = false -> leaf_stopped k = true).
Proof. exact (@facts_when_any_stops cp ss e ctx evs r). Qed.
Print Assumptions when_any_winner_asks_others_to_stop.

(** ** C13: stop requests reach every running, unshielded leaf and complete nothing themselves *)
Theorem stop_request_reaches_every_leaf s e ctx evs r :
  wt s -> run (start e ctx s) evs r -> e_stop e = true \/ In EStop evs ->
  forall p k, leaf_at (r_op r) p = Some k -> shielded (r_op r) p = false -> leaf_stopped k = true.
Proof. exact (@stop_reaches_leaves s e ctx evs r). Qed.
Print Assumptions stop_request_reaches_every_leaf.

Theorem stop_request_alone_completes_nothing r r' :
  run r [EStop] r' -> r_calls r' = r_calls r /\ r_obs r' = r_obs r.
Proof. exact (@stop_is_silent r r'). Qed.
Print Assumptions stop_request_alone_completes_nothing.

(** ** C14: algebraic laws *)
Theorem law_just_let_value fid lt thr f ts vs :
  wt (Let KVal fid lt thr f (Just ts vs)) -> thr vs = None ->
  equiv (Let KVal fid lt thr f (Just ts vs)) (f vs).
Proof. exact (@just_let_value fid lt thr f ts vs). Qed.
Print Assumptions law_just_let_value.

Theorem law_let_value_just fid lt thr f s :
  wt (Let KVal fid lt thr f s) -> (forall vs, thr vs = None /\ exists ts, f vs = Just ts vs) ->
  equiv (Let KVal fid lt thr f s) s.
Proof. exact (@let_value_just fid lt thr f s). Qed.
Print Assumptions law_let_value_just.

Theorem law_then_then fid1 fid2 fid ft1 ft2 ft f g s :
  wt (Fun KVal fid2 ft2 g (Fun KVal fid1 ft1 f s)) ->
  equiv (Fun KVal fid2 ft2 g (Fun KVal fid1 ft1 f s)) (Fun KVal fid ft (compose_fun f g) s).
Proof. exact (@then_then fid1 fid2 fid ft1 ft2 ft f g s). Qed.
Print Assumptions law_then_then.

Theorem law_sequence_assoc n1 n2 n3 n4 a b c :
  wt (Seq None n2 (Seq None n1 a b) c) ->
  equiv (Seq None n2 (Seq None n1 a b) c) (Seq None n4 a (Seq None n3 b c)).
Proof. exact (@sequence_assoc n1 n2 n3 n4 b c a). Qed.
Print Assumptions law_sequence_assoc.

Theorem law_other_channel_is_identity k fid ft f s :
  wt (Fun k fid ft f s) -> sends k (csigs s) = false -> equiv (Fun k fid ft f s) s.
Proof. exact (@fun_other_channel k fid ft f s). Qed.
Print Assumptions law_other_channel_is_identity.

Theorem law_let_value_assoc fid1 fid2 fid3 fid4 lt1 lt2 lt3 lt4 f g s :
  wt (Let KVal fid2 lt2 nothr g (Let KVal fid1 lt1 nothr f s)) ->
  equiv (Let KVal fid2 lt2 nothr g (Let KVal fid1 lt1 nothr f s))
        (Let KVal fid4 lt4 nothr (fun vs => Let KVal fid3 lt3 nothr g (f vs)) s).
Proof. exact (@let_assoc fid1 fid2 fid3 fid4 lt1 lt2 lt3 lt4 f g s). Qed.
Print Assumptions law_let_value_assoc.

(** ** Non-trivial instances *)
(** three leaves; the middle one fails first: leaf 0 and leaf 2 see stop_requested, the error is
    reported after both have completed *)
Definition ex_all : sender :=
  WhenAll (fun _ _ => None)
    [Leaf 0 [SVal [TBase 0 true]; SStop]; Leaf 1 [SVal []; SErr TEptr]; Shield (Leaf 2 [SVal []; SStop])].
Example ex_all_wt : wt ex_all.
Proof. simpl. repeat split; try (intros; discriminate); cbv; lia. Qed.

Example ex_all_runs :
  exists r r2, run (start ex_env 0 ex_all) [EComplete [1] (Err (VEptr 3), 11)] r /\
    leaf_at (r_op r) [0] = Some (LkUser 0 [SVal [TBase 0 true]; SStop] true) /\
    leaf_at (r_op r) [2] = Some (LkUser 2 [SVal []; SStop] false) /\
    shielded (r_op r) [2] = true /\ r_calls r = [] /\
    run r [EComplete [2] (Val [], 12); EComplete [0] (Stop, 13)] r2 /\
    r_calls r2 = [(Err (VEptr 3), 13)].
Proof.
  eexists _, _. split; [|split; [|split; [|split; [|split; [|split]]]]].
  - econstructor; [simpl; eexists; split; [reflexivity|]; exists (SErr TEptr); split; [simpl; auto|constructor]|reflexivity|].
    constructor.
  - reflexivity. - reflexivity. - reflexivity. - reflexivity.
  - econstructor; [simpl; eexists; split; [reflexivity|]; exists (SVal []); simpl; auto|reflexivity|].
    econstructor; [simpl; eexists; split; [reflexivity|]; exists SStop; simpl; auto|reflexivity|].
    constructor.
  - reflexivity.
Qed.

Example ex_any_wt : wt (WhenAny (fun _ _ => None) [Leaf 0 [SVal []; SStop]; Leaf 1 [SVal []; SStop]]).
Proof. simpl. repeat split; try (intros; discriminate). Qed.

Example ex_any_runs :
  exists r, run (start ex_env 0 (WhenAny (fun _ _ => None) [Leaf 0 [SVal []; SStop]; Leaf 1 [SVal []; SStop]]))
     [EComplete [1] (Val [], 11); EComplete [0] (Stop, 12)] r /\ r_calls r = [(Val [], 12)].
Proof.
  eexists. split.
  - econstructor; [simpl; eexists; split; [reflexivity|]; exists (SVal []); simpl; auto|reflexivity|].
    econstructor; [simpl; eexists; split; [reflexivity|]; exists SStop; simpl; auto|reflexivity|].
    constructor.
  - reflexivity.
Qed.

(** the laws are not vacuous: the equivalence distinguishes senders *)
Example ex_not_equiv : ~ equiv (Just [] []) JustStopped.
Proof.
  intros H. destruct (H ex_env 0 []) as [H1 _].
  destruct (H1 _ (run_nil _)) as (r' & Hr & Hc & _). inversion Hr; subst. discriminate.
Qed.
Example ex_equiv : equiv (Let KVal 2 ex_lt (fun _ => None) (fun _ => Leaf 3 [SVal [TBase 2 true]; SStop]) (Just [] []))
                         (Leaf 3 [SVal [TBase 2 true]; SStop]).
Proof.
  apply (@law_just_let_value 2 ex_lt (fun _ => None) (fun _ => Leaf 3 [SVal [TBase 2 true]; SStop]) [] []); auto.
  simpl. split; [constructor|]. intros. repeat split; try discriminate. apply incl_refl.
Qed.
