(** * SenderWhen: when_all / when_any in terms of their children's runs. *)

From Coq Require Import List Arith Bool Lia.
From Verif Require Import SenderModel SenderSpec SenderProofs SenderSafety SenderRun SenderLaws.
Import ListNotations.
Set Implicit Arguments.

(** What happened at a when_all / when_any node, in order: child [i] completed with [c], or
    the parent's stop request arrived. *)
Inductive item := AChild (i : nat) (c : call) | AStop.

Definition is_child (it : item) : bool := match it with AChild _ _ => true | AStop => false end.
Definition done_count (log : list item) : nat := length (filter is_child log).

(** ** The log of a run *)

Definition stopr (r : res) : res := mkres (stop_op (r_op r)) (r_calls r) (r_obs r).

(** some children may have been asked to stop *)
Definition maybe_stop (rs rs' : list res) : Prop := rs' = rs \/ rs' = map stopr rs.

Fixpoint index {A} (i : nat) (l : list A) : list (nat * A) :=
  match l with [] => [] | x :: l => (i, x) :: index (S i) l end.

(** completions of the children that completed inside start(), in the order of starting *)
Definition inline_items (rs : list res) : list item :=
  flat_map (fun ir => map (AChild (fst ir)) (r_calls (snd ir))) (index 0 rs).

(** [node_log n ctx e stp ss evs rs log]: after events [evs] at a node with children [ss]
    started in environment [e], the children are in states [rs] and [log] happened; [stp]
    says whether a stop request already present at start() is recorded. *)
Inductive node_log (ctx : nat) (e : env) (stp : bool) (ss : list sender)
  : list event -> list res -> list item -> Prop :=
| nl_start rs :
    Forall2 (fun s r => exists e' evs, Forall (eq EStop) evs /\ e_sch e' = e_sch e /\
                          run (start e' ctx s) evs r) ss rs ->
    node_log ctx e stp ss [] rs ((if stp then [AStop] else []) ++ inline_items rs)
| nl_child evs rs log i p c ri ri' rs' :
    node_log ctx e stp ss evs rs log ->
    nth_error rs i = Some ri ->
    run ri [EComplete p c] ri' ->
    maybe_stop (upd rs i ri') rs' ->
    node_log ctx e stp ss (evs ++ [EComplete (i :: p) c]) rs'
             (log ++ match r_calls ri with [] => map (AChild i) (r_calls ri') | _ => [] end)
| nl_stop evs rs log rs' :
    node_log ctx e stp ss evs rs log ->
    maybe_stop rs rs' ->
    node_log ctx e stp ss (evs ++ [EStop]) rs'
             (log ++ if done_count log =? length ss then [] else [AStop]).

(** ** The declarative result of when_all *)

(** the first failure with an error: a child's error, or a result that could not be copied *)
Fixpoint first_error (cp : nat -> compl -> option nat) (values : bool) (log : list item)
  : option val :=
  match log with
  | [] => None
  | AChild i (Err x, _) :: _ => Some (match cp i (Err x) with None => x | Some ex => VEptr ex end)
  | AChild i (Val vs, _) :: log =>
      match (if values then cp i (Val vs) else None) with
      | Some ex => Some (VEptr ex)
      | None => first_error cp values log
      end
  | _ :: log => first_error cp values log
  end.

(** somebody was stopped *)
Definition stop_seen (log : list item) : bool :=
  existsb (fun it => match it with AStop => true | AChild _ (Stop, _) => true | _ => false end) log.

(** the values child [i] produced *)
Fixpoint child_values (i : nat) (log : list item) : list val :=
  match log with
  | [] => []
  | AChild j (Val vs, _) :: log => if i =? j then vs else child_values i log
  | _ :: log => child_values i log
  end.

Definition when_all_result (cp : nat -> compl -> option nat) (ss : list sender) (log : list item) : compl :=
  match first_error cp (forallb (fun s => sends KVal (csigs s)) ss) log with
  | Some x => Err x
  | None =>
      if stop_seen log && existsb (fun s => sends KStop (csigs s)) ss then Stop
      else Val (concat (map (fun i => child_values i log) (seq 0 (length ss))))
  end.

(** context on which the last completion arrived *)
Fixpoint last_ctx (d : nat) (log : list item) : nat :=
  match log with
  | [] => d
  | AChild _ c :: log => last_ctx (snd c) log
  | AStop :: log => last_ctx d log
  end.

(** ** when_all follows its log *)

(** the node's state as a function of the log *)
Definition wstep (ws : wstatic) (w : wstate) (it : item) : wstate :=
  match it with
  | AChild i c =>
      let w' := wa_store ws i (fst c) w in
      {| w_st := w_st w'; w_err := w_err w'; w_vals := w_vals w'; w_cnt := w_cnt w' - 1;
         w_src := w_src w' |}
  | AStop =>
      if ws_uses ws then
        match w_st w with
        | WStarted => {| w_st := WStopped; w_err := w_err w; w_vals := w_vals w;
                         w_cnt := w_cnt w; w_src := true |}
        | _ => w
        end
      else w
  end.
Definition w0 (n : nat) : wstate :=
  {| w_st := WStarted; w_err := None; w_vals := repeat None n; w_cnt := n; w_src := false |}.
Definition wfold (ws : wstatic) (n : nat) (log : list item) : wstate :=
  fold_left (wstep ws) log (w0 n).

Lemma wfold_snoc ws n log it : wfold ws n (log ++ [it]) = wstep ws (wfold ws n log) it.
Proof. unfold wfold. rewrite fold_left_app. auto. Qed.

Lemma stopr_run r : run r [EStop] (stopr r).
Proof.
  econstructor; [exact I|reflexivity|]. simpl. rewrite !app_nil_r. constructor.
Qed.

Lemma maybe_stop_prop w w' rs :
  exists rs', wa_prop w w' (map r_op rs) = map r_op rs' /\ maybe_stop rs rs'.
Proof.
  unfold wa_prop. destruct (_ && _).
  - exists (map stopr rs). split; [|right; auto]. rewrite !map_map. auto.
  - exists rs. split; auto. left; auto.
Qed.

Lemma stops_snoc (P : sender -> res -> Prop) ss rs rs' :
  (forall s r, P s r -> P s (stopr r)) -> maybe_stop rs rs' -> Forall2 P ss rs -> Forall2 P ss rs'.
Proof.
  intros HP [-> | ->] H; auto. induction H; simpl; constructor; auto.
Qed.

Lemma maybe_stop_calls rs rs' : maybe_stop rs rs' -> map r_calls rs' = map r_calls rs.
Proof. intros [->| ->]; auto. rewrite map_map. auto. Qed.

Lemma index_app {A} (l l' : list A) i : index i (l ++ l') = index i l ++ index (i + length l) l'.
Proof.
  revert i; induction l; simpl; intros; [rewrite Nat.add_0_r|]; auto.
  rewrite IHl. rewrite Nat.add_succ_comm. auto.
Qed.

Lemma inline_items_calls rs rs' : map r_calls rs' = map r_calls rs -> inline_items rs' = inline_items rs.
Proof.
  unfold inline_items. generalize 0. revert rs'. induction rs; destruct rs'; simpl; intros; try discriminate; auto.
  injection H as H1 H2. rewrite H1. f_equal. auto.
Qed.

Lemma inline_items_snoc rs r :
  inline_items (rs ++ [r]) = inline_items rs ++ map (AChild (length rs)) (r_calls r).
Proof.
  unfold inline_items. rewrite index_app, flat_map_app. simpl. rewrite app_nil_r. auto.
Qed.

(** calls a child can have made *)
Definition reached (ctx : nat) (s : sender) (r : res) : Prop :=
  exists e' evs, run (start e' ctx s) evs r.

Lemma reached_ok ctx s r : wt s -> reached ctx s r -> okres (csigs s) r.
Proof. intros Hw (e' & evs & Hr). exact (run_start_ok Hw Hr). Qed.

Lemma reached_one ctx s r : wt s -> reached ctx s r -> length (r_calls r) <= 1.
Proof.
  intros Hw Hr. destruct (reached_ok Hw Hr) as [_ [(Hc & _)|(c & Hc & _)]]; rewrite Hc; simpl; lia.
Qed.

Lemma reached_run ctx s r evs r' : reached ctx s r -> run r evs r' -> reached ctx s r'.
Proof. intros (e & evs0 & H) H'. exists e, (evs0 ++ evs). apply run_app. eauto. Qed.

Lemma reached_maybe ctx ss rs rs' :
  maybe_stop rs rs' -> Forall2 (reached ctx) ss rs -> Forall2 (reached ctx) ss rs'.
Proof. intros. eapply stops_snoc; eauto. intros. eapply reached_run; eauto. apply stopr_run. Qed.

(** ** Facts about every log *)

Definition of_child (i : nat) (log : list item) : list item :=
  filter (fun it => match it with AChild j _ => i =? j | AStop => false end) log.

Definition sum (l : list nat) : nat := fold_right Nat.add 0 l.
Definition ncalls (rs : list res) : nat := sum (map (fun r => length (r_calls r)) rs).

Definition synced (rs : list res) (log : list item) : Prop :=
  (forall i r, nth_error rs i = Some r -> of_child i log = map (AChild i) (r_calls r)) /\
  (forall i, length rs <= i -> of_child i log = []) /\
  done_count log = ncalls rs.

Lemma of_child_app i l l' : of_child i (l ++ l') = of_child i l ++ of_child i l'.
Proof. apply filter_app. Qed.
Lemma done_count_app l l' : done_count (l ++ l') = done_count l + done_count l'.
Proof. unfold done_count. rewrite filter_app, app_length. auto. Qed.
Lemma of_child_map_eq i cs : of_child i (map (AChild i) cs) = map (AChild i) cs.
Proof. induction cs; simpl; auto. rewrite Nat.eqb_refl. f_equal; auto. Qed.
Lemma of_child_map_neq i j cs : i <> j -> of_child i (map (AChild j) cs) = [].
Proof. intros H. induction cs; simpl; auto. apply Nat.eqb_neq in H. rewrite H. auto. Qed.
Lemma done_count_map i cs : done_count (map (AChild i) cs) = length cs.
Proof. unfold done_count. induction cs; simpl; auto. Qed.

Lemma sum_app l l' : sum (l ++ l') = sum l + sum l'.
Proof. induction l; simpl; auto. rewrite IHl. lia. Qed.

Lemma synced_snoc rs log r :
  synced rs log -> synced (rs ++ [r]) (log ++ map (AChild (length rs)) (r_calls r)).
Proof.
  intros (A & B & C). split; [|split].
  - intros i r0 Hi. rewrite of_child_app.
    destruct (Nat.lt_ge_cases i (length rs)).
    + rewrite nth_error_app1 in Hi by auto. rewrite (A _ _ Hi), of_child_map_neq, app_nil_r by lia. auto.
    + rewrite nth_error_app2 in Hi by auto. rewrite B by auto. simpl.
      destruct (i - length rs) eqn:E; simpl in Hi; [|destruct n; discriminate].
      injection Hi as <-. replace i with (length rs) by lia. apply of_child_map_eq.
  - intros i Hi. rewrite app_length in Hi. simpl in Hi.
    rewrite of_child_app, B, of_child_map_neq by lia. auto.
  - rewrite done_count_app, done_count_map, C. unfold ncalls. rewrite map_app, sum_app. simpl. lia.
Qed.

Lemma synced_maybe rs rs' log : maybe_stop rs rs' -> synced rs log -> synced rs' log.
Proof.
  intros H (A & B & C). pose proof (maybe_stop_calls H) as E.
  assert (L : length rs' = length rs) by (rewrite <- (map_length r_calls rs'), E, map_length; auto).
  split; [|split].
  - intros i r Hi. assert (Hm : nth_error (map r_calls rs') i = Some (r_calls r)) by (apply map_nth_error; auto).
    rewrite E in Hm. destruct (nth_error rs i) as [r1|] eqn:E1.
    + rewrite (map_nth_error r_calls _ _ E1) in Hm. injection Hm as <-. eauto.
    + apply nth_error_None in E1.
      assert (i < length rs') by (apply nth_error_Some; congruence). lia.
  - intros i Hi. apply B. lia.
  - rewrite C. unfold ncalls. rewrite <- !(map_map r_calls (@length _)), E. auto.
Qed.

Lemma synced_stop rs log : synced rs log -> synced rs (log ++ [AStop]).
Proof.
  intros (A & B & C). split; [|split].
  - intros. rewrite of_child_app. simpl. rewrite app_nil_r. eauto.
  - intros. rewrite of_child_app. simpl. rewrite app_nil_r. eauto.
  - rewrite done_count_app, C. unfold done_count. simpl. lia.
Qed.

Lemma sum_upd l i x y : nth_error l i = Some x -> sum (upd l i y) + x = sum l + y.
Proof.
  revert i; induction l; destruct i; simpl; intros H; try discriminate.
  - injection H as ->. lia.
  - specialize (IHl _ H). lia.
Qed.

Lemma synced_child rs log i ri ri' :
  synced rs log -> nth_error rs i = Some ri ->
  (r_calls ri = [] \/ r_calls ri' = r_calls ri) ->
  synced (upd rs i ri') (log ++ match r_calls ri with [] => map (AChild i) (r_calls ri') | _ => [] end).
Proof.
  intros (A & B & C) Hi Hor.
  assert (Hlt : i < length rs) by (apply nth_error_Some; congruence).
  split; [|split].
  - intros j r Hj. rewrite of_child_app. destruct (Nat.eq_dec i j) as [->|Hne].
    + rewrite nth_upd_eq in Hj by auto. injection Hj as <-. rewrite (A _ _ Hi).
      destruct (r_calls ri) eqn:E; simpl.
      * apply of_child_map_eq.
      * destruct Hor as [? | ->]; [discriminate|]. simpl. rewrite app_nil_r. auto.
    + rewrite nth_upd_neq in Hj by auto. rewrite (A _ _ Hj).
      destruct (r_calls ri); simpl; rewrite ?of_child_map_neq, ?app_nil_r by auto; auto.
  - intros j Hj. rewrite length_upd in Hj. rewrite of_child_app, B by auto.
    destruct (r_calls ri); simpl; auto. apply of_child_map_neq. lia.
  - rewrite done_count_app, C. unfold ncalls. rewrite map_upd.
    pose proof (@sum_upd (map (fun r => length (r_calls r)) rs) i (length (r_calls ri)) (length (r_calls ri'))
                  (map_nth_error _ _ _ Hi)).
    destruct (r_calls ri) eqn:E; simpl in *.
    + rewrite done_count_map. lia.
    + destruct Hor as [? | E']; [discriminate|]. rewrite E' in H. simpl in H.
      unfold done_count. simpl. rewrite E' . simpl. lia.
Qed.

Lemma inline_synced rs : synced rs (inline_items rs).
Proof.
  induction rs using rev_ind.
  - split; [|split]; auto. intros [|] r H; discriminate.
  - rewrite inline_items_snoc. apply synced_snoc. auto.
Qed.

Lemma synced_cons rs log : synced rs log -> synced rs (AStop :: log).
Proof. intros (A & B & C). split; [|split]; auto. Qed.

Lemma F2_upd {A B} (P : A -> B -> Prop) l1 l2 i y x :
  Forall2 P l1 l2 -> nth_error l1 i = Some x -> P x y -> Forall2 P l1 (upd l2 i y).
Proof.
  intros H. revert i. induction H; destruct i; simpl; intros E HP; try discriminate.
  - injection E as ->. constructor; auto.
  - constructor; eauto.
Qed.
Lemma F2_nth {A B} (P : A -> B -> Prop) l1 l2 i y :
  Forall2 P l1 l2 -> nth_error l2 i = Some y -> exists x, nth_error l1 i = Some x /\ P x y.
Proof.
  intros H. revert i. induction H; destruct i; simpl; intros E; try discriminate; eauto.
  injection E as ->. eauto.
Qed.

Lemma F2_impl {A B} (P Q : A -> B -> Prop) l1 l2 :
  (forall x y, P x y -> Q x y) -> Forall2 P l1 l2 -> Forall2 Q l1 l2.
Proof. induction 2; constructor; auto. Qed.

Lemma node_log_facts ctx e stp ss evs rs log :
  Forall wt ss ->
  node_log ctx e stp ss evs rs log -> Forall2 (reached ctx) ss rs /\ synced rs log.
Proof.
  intros Hw. induction 1.
  - split.
    + eapply F2_impl; [|exact H]. intros s r (e' & evs & _ & _ & Hr). exists e', evs. auto.
    + destruct stp; simpl; [apply synced_cons|]; apply inline_synced.
  - destruct IHnode_log as [HR HS].
    destruct (F2_nth _ HR H0) as (s & Hs & Hr).
    assert (wt s) by (rewrite Forall_forall in Hw; eapply Hw, nth_error_In; eauto).
    split.
    + eapply reached_maybe; eauto. eapply F2_upd; eauto. eapply reached_run; eauto.
    + eapply synced_maybe; eauto. apply synced_child; auto.
      destruct (reached_ok H3 Hr) as [_ [(Hc & _)|(c0 & Hc & _ & Hl)]]; auto.
      right. destruct (run_dead H1 Hl) as (_ & E & _). auto.
  - destruct IHnode_log as [HR HS]. split; [eapply reached_maybe; eauto|].
    eapply synced_maybe; eauto. destruct (_ =? _); [rewrite app_nil_r|apply synced_stop]; auto.
Qed.

Lemma Forall2_len {A B} (P : A -> B -> Prop) l1 l2 : Forall2 P l1 l2 -> length l1 = length l2.
Proof. induction 1; simpl; auto. Qed.

(** a running child means that not everybody has arrived *)
Lemma ncalls_le ctx ss rs : Forall wt ss -> Forall2 (reached ctx) ss rs -> ncalls rs <= length rs.
Proof.
  intros Hw H. induction H; simpl; auto. inversion Hw; subst. unfold ncalls in *. simpl.
  pose proof (reached_one H3 H). specialize (IHForall2 H4). lia.
Qed.
Lemma ncalls_lt ctx ss rs i r :
  Forall wt ss -> Forall2 (reached ctx) ss rs -> nth_error rs i = Some r -> r_calls r = [] ->
  ncalls rs < length rs.
Proof.
  intros Hw H. revert i. induction H; intros [|i] Hi Hc; simpl in *; try discriminate; inversion Hw; subst.
  - injection Hi as ->. unfold ncalls. simpl. rewrite Hc. simpl. pose proof (ncalls_le H4 H0).
    unfold ncalls in *. lia.
  - pose proof (reached_one H3 H). unfold ncalls in *. simpl. specialize (IHForall2 H4 _ Hi Hc). lia.
Qed.

(** ** when_all runs follow their log *)

(** output of when_all after a log, starting from nothing *)
Definition wa_out (ws : wstatic) (n : nat) (log : list item) : list call :=
  if w_cnt (wfold ws n log) =? 0 then fst (wa_complete ws (wfold ws n log) (last_ctx 0 log)) else [].

Lemma last_ctx_snoc d log i c : last_ctx d (log ++ [AChild i c]) = snd c.
Proof. revert d; induction log as [|[]]; simpl; auto. Qed.
Lemma last_ctx_stop d log : last_ctx d (log ++ [AStop]) = last_ctx d log.
Proof. revert d; induction log as [|[]]; simpl; auto. Qed.

Lemma wa_set_error_cnt x v w : w_cnt (wa_set_error x v w) = w_cnt w.
Proof. unfold wa_set_error. destruct (w_st w); auto. Qed.

Lemma wa_store_cnt ws i c w : w_cnt (wa_store ws i c w) = w_cnt w.
Proof.
  unfold wa_store. destruct c.
  - destruct (ws_values ws); auto. destruct (ws_cp ws i (Val vs)); auto. apply wa_set_error_cnt.
  - apply wa_set_error_cnt.
  - destruct (w_st w); auto.
Qed.

Lemma wfold_cnt ws n log : w_cnt (wfold ws n log) = n - done_count log.
Proof.
  induction log using rev_ind; [unfold done_count; simpl; lia|].
  rewrite wfold_snoc, done_count_app. unfold done_count at 2. destruct x; simpl.
  - rewrite wa_store_cnt, IHlog. lia.
  - rewrite Nat.add_0_r, <- IHlog. destruct (ws_uses ws); [destruct (w_st (wfold ws n log))|]; auto.
Qed.

Lemma wa_calls_log ws n log i (c : call) :
  w_cnt (wfold ws n log) <> 0 ->
  exists t, wa_calls ws i [c] (wfold ws n log) =
     (wfold ws n (log ++ [AChild i c]), wa_out ws n (log ++ [AChild i c]), t).
Proof.
  intros Hnz. unfold wa_calls, wa_arrive, wa_out. rewrite last_ctx_snoc, wfold_snoc. simpl.
  rewrite wa_store_cnt. destruct (w_cnt (wfold ws n log) =? 1) eqn:E1.
  - apply Nat.eqb_eq in E1. rewrite E1. simpl.
    destruct (wa_complete ws _ (snd c)) as [cs t]. exists (t ++ []). simpl. rewrite app_nil_r. auto.
  - apply Nat.eqb_neq in E1. destruct (w_cnt (wfold ws n log) - 1) eqn:E2; [lia|]. simpl. eauto.
Qed.

(** no completion: nothing happens *)
Lemma wa_calls_all ctx (s : sender) (r : res) ws n log i :
  wt s -> reached ctx s r -> done_count log < n ->
  exists t, wa_calls ws i (r_calls r) (wfold ws n log) =
    (wfold ws n (log ++ map (AChild i) (r_calls r)),
     wa_out ws n (log ++ map (AChild i) (r_calls r)), t).
Proof.
  intros Hw Hr Hlt. destruct (reached_ok Hw Hr) as [_ [(Hc & _)|(c & Hc & _)]]; rewrite Hc; simpl.
  - rewrite app_nil_r. exists []. unfold wa_out. rewrite wfold_cnt.
    destruct (n - done_count log) eqn:E; [lia|]. auto.
  - apply wa_calls_log. rewrite wfold_cnt. lia.
Qed.

Definition fresh (ctx : nat) (e : env) (s : sender) (r : res) : Prop :=
  exists e' evs, Forall (eq EStop) evs /\ e_sch e' = e_sch e /\ run (start e' ctx s) evs r.

Lemma fresh_stop ctx e s r : fresh ctx e s r -> fresh ctx e s (stopr r).
Proof.
  intros (e' & evs & A & B & C). exists e', (evs ++ [EStop]). split; [|split; auto].
  - apply Forall_app. auto.
  - apply run_app. exists r. split; auto. apply stopr_run.
Qed.
Lemma fresh_reached ctx e ss rs : Forall2 (fresh ctx e) ss rs -> Forall2 (reached ctx) ss rs.
Proof. intros H. eapply F2_impl; [|exact H]. intros s r (e' & evs & _ & _ & Hr). exists e', evs. auto. Qed.

Lemma done_count_inline rs : done_count (inline_items rs) = ncalls rs.
Proof. apply inline_synced. Qed.

Definition stp_log (b : bool) : list item := if b then [AStop] else [].
Lemma done_count_stp b l : done_count (stp_log b ++ l) = done_count l.
Proof. destruct b; auto. Qed.

Lemma wa_go_log e ctx ws n b : forall ss pre rs,
  Forall wt pre -> Forall wt ss -> Forall2 (fresh ctx e) pre rs -> n = length pre + length ss ->
  exists rs' out t,
    wa_go e ctx ws (length rs) ss (wfold ws n (stp_log b ++ inline_items rs)) (map r_op rs) =
      (wfold ws n (stp_log b ++ inline_items rs'), map r_op rs', out, t) /\
    Forall2 (fresh ctx e) (pre ++ ss) rs' /\
    (ss = [] -> rs' = rs) /\
    (ss <> [] -> out = wa_out ws n (stp_log b ++ inline_items rs')).
Proof.
  induction ss as [|s ss IH]; intros pre rs Hp Hs HR Hn.
  - exists rs, [], []. rewrite app_nil_r. split; auto. split; auto. split; auto. congruence.
  - simpl. set (w := wfold ws n (stp_log b ++ inline_items rs)).
    set (r := start (wa_env ws w e) ctx s).
    pose proof (Forall_inv Hs) as Hws. pose proof (Forall_inv_tail Hs) as Hwss.
    assert (Hfr : fresh ctx e s r).
    { exists (wa_env ws w e), []. split; auto. split; auto. constructor. }
    assert (Hre : reached ctx s r) by (destruct Hfr as (e' & ev & _ & _ & ?); exists e', ev; auto).
    pose proof (Forall2_len HR) as HL.
    assert (Hd : done_count (stp_log b ++ inline_items rs) < n).
    { rewrite done_count_stp, done_count_inline.
      pose proof (ncalls_le Hp (fresh_reached HR)). simpl in Hn. lia. }
    destruct (@wa_calls_all ctx s r ws n (stp_log b ++ inline_items rs) (length rs) Hws Hre Hd) as (t1 & E1).
    fold w in E1. rewrite E1.
    rewrite <- app_assoc in E1 |- *. rewrite <- inline_items_snoc.
    set (w1 := wfold ws n (stp_log b ++ inline_items (rs ++ [r]))).
    assert (Em : map r_op rs ++ [r_op r] = map r_op (rs ++ [r])) by (rewrite map_app; auto).
    rewrite Em. destruct (maybe_stop_prop w w1 (rs ++ [r])) as (rs1 & Er1 & Hms). rewrite Er1.
    assert (HF : Forall2 (fresh ctx e) (pre ++ [s]) rs1).
    { eapply stops_snoc; [intros; apply fresh_stop; eauto|exact Hms|].
      apply Forall2_app; auto. }
    assert (Hin : inline_items (rs ++ [r]) = inline_items rs1)
      by (symmetry; apply inline_items_calls, maybe_stop_calls; auto).
    destruct (IH (pre ++ [s]) rs1) as (rs2 & out2 & t2 & E2 & HF2 & Hz2 & Ho2); auto.
    { apply Forall_app; auto. } { rewrite app_length. simpl in *. lia. }
    rewrite <- (Forall2_len HF), app_length in E2. simpl in E2. rewrite Nat.add_1_r, HL in E2.
    unfold w1. rewrite Hin. rewrite E2. eexists rs2, _, _. split; [reflexivity|].
    rewrite <- app_assoc in HF2. simpl in HF2. split; auto. split; [discriminate|].
    intros _. destruct ss as [|s' ss].
    + rewrite Hz2 by auto. simpl in E2. injection E2 as E2a E2b E2c E2d. subst out2.
      rewrite app_nil_r. auto.
    + rewrite Ho2 by congruence. unfold wa_out at 1. rewrite wfold_cnt, <- Hin.
      rewrite done_count_stp, done_count_inline.
      assert (Hlt : ncalls (rs ++ [r]) <= length (rs ++ [r])).
      { eapply ncalls_le; [|eapply fresh_reached, Forall2_app; eauto]. apply Forall_app; auto. }
      rewrite app_length in Hlt. simpl in Hlt, Hn.
      destruct (n - ncalls (rs ++ [r])) eqn:E; [lia|]. auto.
Qed.

Lemma wa_init_fold ws n e : wa_init ws n e = wfold ws n (stp_log (ws_uses ws && e_stop e)).
Proof.
  unfold wa_init, wfold, stp_log. destruct (ws_uses ws) eqn:E, (e_stop e); simpl; rewrite ?E; auto.
Qed.

Definition winvr (cp : nat -> compl -> option nat) ss e ctx (evs : list event) (r : res) : Prop :=
  let ws := wa_static cp ss in
  exists rs log, node_log ctx e (ws_uses ws && e_stop e) ss evs rs log /\
    r_op r = OWhen ws (wfold ws (length ss) log) (map r_op rs) /\
    r_calls r = wa_out ws (length ss) log.

Lemma winvr_start cp ss e ctx : Forall wt ss -> ss <> [] -> winvr cp ss e ctx [] (start e ctx (WhenAll cp ss)).
Proof.
  intros Hw Hne. rewrite start_when_all. cbv zeta. set (ws := wa_static cp ss).
  rewrite wa_init_fold. set (b := ws_uses ws && e_stop e).
  destruct (@wa_go_log e ctx ws (length ss) b ss [] []) as (rs' & out & t & E & HF & _ & Ho); auto.
  change (inline_items []) with (@nil item) in E. rewrite app_nil_r in E.
  simpl length in E at 1. simpl map in E at 1. rewrite E.
  exists rs', (stp_log b ++ inline_items rs'). fold ws. fold b. split; [|split]; simpl; auto.
  apply nl_start. exact HF.
Qed.

Lemma winvr_step cp ss e ctx evs r ev r1 :
  Forall wt ss -> winvr cp ss e ctx evs r ->
  valid_event (r_op r) ev -> step (r_op r) ev = Some r1 ->
  winvr cp ss e ctx (evs ++ [ev]) (mkres (r_op r1) (r_calls r ++ r_calls r1) (r_obs r ++ r_obs r1)).
Proof.
  intros Hw (rs & log & HN & Ho & Hc) Hv Hs. unfold winvr. set (ws := wa_static cp ss) in *. clearbody ws.
  destruct (node_log_facts Hw HN) as [HR HS]. pose proof (Forall2_len HR) as HL.
  destruct HS as (HS1 & HS2 & HS3). rewrite Ho in Hv, Hs. destruct ev as [p c|].
  - destruct Hv as (k & Hk & Hm). cbn [step] in Hs.
    destruct p as [|i p]; [discriminate|]. rewrite leaf_when in Hk. rewrite feed_when in Hs.
    destruct (nth_error (map r_op rs) i) as [o|] eqn:Ei; [|discriminate].
    apply nth_map_inv in Ei. destruct Ei as (ri & Ei & ->).
    destruct (feed (r_op ri) p c) as [rf|] eqn:Ef; [|discriminate].
    destruct (F2_nth _ HR Ei) as (s & Hsi & Hre).
    assert (Hws : wt s) by (rewrite Forall_forall in Hw; eapply Hw, nth_error_In; eauto).
    assert (Hci : r_calls ri = []).
    { destruct (reached_ok Hws Hre) as [_ [(? & _)|(c0 & _ & _ & Hl)]]; auto.
      apply leaf_live in Hk. congruence. }
    set (ri' := mkres (r_op rf) (r_calls ri ++ r_calls rf) (r_obs ri ++ r_obs rf)).
    assert (Hrun : run ri [EComplete p c] ri').
    { econstructor; [simpl; eauto|exact Ef|constructor]. }
    assert (Hre' : reached ctx s ri') by (eapply reached_run; eauto).
    assert (Hd : done_count log < length ss).
    { rewrite HS3, HL. eapply ncalls_lt; eauto. }
    assert (Ecl : r_calls ri' = r_calls rf) by (unfold ri'; simpl; rewrite Hci; auto).
    destruct (@wa_calls_all ctx s ri' ws (length ss) log i Hws Hre' Hd) as (t & E).
    rewrite Ecl in E. rewrite E in Hs. injection Hs as <-. simpl.
    assert (Eu : upd (map r_op rs) i (r_op rf) = map r_op (upd rs i ri')) by (rewrite map_upd; auto).
    rewrite Eu.
    destruct (maybe_stop_prop (wfold ws (length ss) log)
                (wfold ws (length ss) (log ++ map (AChild i) (r_calls rf))) (upd rs i ri')) as (rs' & Er & Hms).
    exists rs', (log ++ map (AChild i) (r_calls rf)). split; [|split].
    + pose proof (nl_child _ HN Ei Hrun Hms) as HN'. rewrite Hci, Ecl in HN'. exact HN'.
    + rewrite Er. auto.
    + rewrite Hc. unfold wa_out at 1. rewrite wfold_cnt.
      destruct (length ss - done_count log) eqn:E0; [lia|]. auto.
  - simpl in Hs. injection Hs as <-. simpl r_op. simpl r_calls. rewrite app_nil_r, Hc.
    set (w := wfold ws (length ss) log) in *.
    assert (Hle : done_count log <= length ss).
    { rewrite HS3, HL. eapply ncalls_le; eauto. }
    destruct (done_count log =? length ss) eqn:Ed.
    + (* everybody already arrived *)
      assert (Hw0 : w_cnt w = 0) by (unfold w; rewrite wfold_cnt; apply Nat.eqb_eq in Ed; lia).
      assert (Hx : exists rs', maybe_stop rs rs' /\ stop_op (OWhen ws w (map r_op rs)) = OWhen ws w (map r_op rs')).
      { simpl stop_op. rewrite Hw0. simpl (0 =? 0). cbv iota. destruct (ws_uses ws).
        - exists rs. split; [left; auto|]. reflexivity.
        - exists (map stopr rs). split; [right; auto|]. rewrite !map_map. auto. }
      destruct Hx as (rs' & Hms & Hx).
      exists rs', (log ++ []). split; [|split].
      * pose proof (nl_stop HN Hms) as HN'. rewrite Ed in HN'. exact HN'.
      * rewrite app_nil_r. exact Hx.
      * rewrite app_nil_r. auto.
    + assert (Hw0 : w_cnt w <> 0) by (unfold w; rewrite wfold_cnt; apply Nat.eqb_neq in Ed; lia).
      assert (Hx : exists rs', maybe_stop rs rs' /\
                     stop_op (OWhen ws w (map r_op rs)) = OWhen ws (wstep ws w AStop) (map r_op rs')).
      { simpl. destruct (w_cnt w =? 0) eqn:E0; [apply Nat.eqb_eq in E0; congruence|].
        destruct (ws_uses ws).
        - destruct (w_st w) eqn:Est.
          + exists (map stopr rs). split; [right; auto|]. rewrite !map_map. auto.
          + exists rs. split; [left; auto|]. auto.
          + exists rs. split; [left; auto|]. auto.
        - exists (map stopr rs). split; [right; auto|]. rewrite !map_map. auto. }
      destruct Hx as (rs' & Hms & Hx).
      exists rs', (log ++ [AStop]). split; [|split].
      * pose proof (nl_stop HN Hms) as HN'. rewrite Ed in HN'. exact HN'.
      * rewrite wfold_snoc. exact Hx.
      * unfold wa_out. rewrite !wfold_cnt, done_count_app. unfold done_count at 3. simpl.
        rewrite Nat.add_0_r. unfold w in Hw0. rewrite wfold_cnt in Hw0.
        destruct (length ss - done_count log); [congruence|]. auto.
Qed.

Lemma winvr_run cp ss e ctx r evs r' :
  Forall wt ss -> run r evs r' -> forall evs0, winvr cp ss e ctx evs0 r -> winvr cp ss e ctx (evs0 ++ evs) r'.
Proof.
  intros Hw. induction 1; intros evs0 HI.
  - rewrite app_nil_r. auto.
  - replace (evs0 ++ ev :: evs) with ((evs0 ++ [ev]) ++ evs) by (rewrite <- app_assoc; auto).
    apply IHrun. eapply winvr_step; eauto.
Qed.

(** ** From the state to the declarative result *)

Definition log_ok (ss : list sender) (log : list item) : Prop :=
  forall i c, In (AChild i c) log -> exists s, nth_error ss i = Some s /\ conforms (csigs s) (fst c).

Lemma first_error_app cp b l l' :
  first_error cp b (l ++ l') = match first_error cp b l with Some x => Some x | None => first_error cp b l' end.
Proof.
  induction l as [|it l IH]; auto. simpl. destruct it as [i [[vs|x|] y]|]; auto.
  destruct (if b then cp i (Val vs) else None); auto.
Qed.
Lemma stop_seen_app l l' : stop_seen (l ++ l') = stop_seen l || stop_seen l'.
Proof. apply existsb_app. Qed.

Lemma wfold_state cp ss log :
  let ws := wa_static cp ss in
  log_ok ss log ->
  let w := wfold ws (length ss) log in
  match first_error cp (ws_values ws) log with
  | Some x => w_st w = WError /\ w_err w = Some x
  | None => w_st w = (if ws_uses ws && stop_seen log then WStopped else WStarted)
  end.
Proof.
  intros ws.
  assert (Ecp : ws_cp ws = cp) by reflexivity.
  assert (Huses : forall s, In s ss -> sends KStop (csigs s) = true -> ws_uses ws = true).
  { intros s Hs Hk. unfold ws, wa_static. simpl. apply existsb_exists. exists (csigs s).
    split; [apply in_map; auto|]. rewrite Hk, orb_true_r. auto. }
  clearbody ws.
  induction log as [|it log IH] using rev_ind; intros Hok w.
  - simpl. rewrite andb_false_r. auto.
  - unfold w. rewrite wfold_snoc, first_error_app.
    assert (Hok' : log_ok ss log) by (intros i c Hin; apply Hok; apply in_app_iff; auto).
    specialize (IH Hok'). cbv zeta in IH. set (w0 := wfold ws (length ss) log) in *.
    destruct (first_error cp (ws_values ws) log) as [x|].
    + destruct IH as [I1 I2]. destruct it as [i [[vs|v|] y]|]; simpl; rewrite ?Ecp.
      * destruct (ws_values ws); simpl; auto. destruct (cp i (Val vs)); simpl; auto.
        unfold wa_set_error. rewrite I1. auto.
      * unfold wa_set_error. rewrite I1. auto.
      * rewrite I1. auto.
      * destruct (ws_uses ws); auto. rewrite I1. auto.
    + rewrite stop_seen_app. destruct it as [i [[vs|v|] y]|]; simpl; rewrite ?Ecp.
      * rewrite orb_false_r. destruct (ws_values ws); simpl; auto.
        destruct (cp i (Val vs)); simpl; auto. unfold wa_set_error. rewrite IH.
        destruct (ws_uses ws && stop_seen log); auto.
      * unfold wa_set_error. rewrite IH.
        destruct (ws_uses ws && stop_seen log); simpl; auto.
      * rewrite orb_true_r, andb_true_r.
        destruct (Hok i (Stop, y)) as (s & Hs & Hcf); [apply in_app_iff; simpl; auto|].
        assert (Hu : ws_uses ws = true).
        { apply (Huses s); [eapply nth_error_In; eauto|]. apply sends_conforms in Hcf. auto. }
        rewrite Hu in *. simpl in *. rewrite IH. destruct (stop_seen log); simpl; auto.
      * rewrite orb_true_r, andb_true_r. destruct (ws_uses ws) eqn:Eu; simpl in *; auto.
        rewrite IH. destruct (stop_seen log); simpl; auto.
Qed.

Lemma wfold_vals_len ws n log : length (w_vals (wfold ws n log)) = n.
Proof.
  induction log using rev_ind; [simpl; apply repeat_length|].
  rewrite wfold_snoc. destruct x as [i [[vs|v|] y]|]; simpl.
  - destruct (ws_values ws); auto. destruct (ws_cp ws i (Val vs)); simpl; [|rewrite length_upd; auto].
    unfold wa_set_error. destruct (w_st _); auto.
  - unfold wa_set_error. destruct (w_st _); auto.
  - destruct (w_st _); auto.
  - destruct (ws_uses ws); auto. destruct (w_st _); auto.
Qed.

Lemma wfold_vals ws n log i vs y :
  ws_values ws = true -> i < n ->
  of_child i log = [AChild i (Val vs, y)] -> ws_cp ws i (Val vs) = None ->
  nth_error (w_vals (wfold ws n log)) i = Some (Some vs).
Proof.
  intros Hv Hi. induction log as [|it log IH] using rev_ind; intros Ho Hcp; [discriminate|].
  rewrite of_child_app in Ho. rewrite wfold_snoc.
  destruct it as [j [c z]|]; simpl in Ho.
  - destruct (i =? j) eqn:Ej; simpl in Ho.
    + apply Nat.eqb_eq in Ej. subst j.
      apply (@app_inj_tail _ _ []) in Ho. destruct Ho as [Ho E]. injection E as -> ->. simpl.
      rewrite Hv, Hcp. simpl. apply nth_upd_eq. rewrite wfold_vals_len. auto.
    + rewrite app_nil_r in Ho. specialize (IH Ho Hcp). apply Nat.eqb_neq in Ej. simpl.
      unfold wa_store. destruct c as [ws'|v|].
      * rewrite Hv. destruct (ws_cp ws j (Val ws')); simpl.
        -- unfold wa_set_error. destruct (w_st _); auto.
        -- rewrite nth_upd_neq; auto.
      * unfold wa_set_error. destruct (w_st _); auto.
      * destruct (w_st _); auto.
  - rewrite app_nil_r in Ho. specialize (IH Ho Hcp). simpl.
    destruct (ws_uses ws); auto. destruct (w_st _); auto.
Qed.

Lemma child_values_of i log : child_values i log = child_values i (of_child i log).
Proof.
  induction log as [|[j [[vs|v|] z]|] log IH]; simpl; auto.
  - destruct (i =? j) eqn:E; simpl; rewrite ?E; auto.
  - destruct (i =? j) eqn:E; simpl; auto.
  - destruct (i =? j) eqn:E; simpl; auto.
Qed.

Lemma cat_opt_all (l : list (option (list val))) (g : nat -> list val) : forall k,
  (forall i, i < length l -> nth_error l i = Some (Some (g (k + i)))) ->
  cat_opt l = Some (concat (map g (seq k (length l)))).
Proof.
  induction l as [|o l IH]; intros k H; auto. simpl.
  pose proof (H 0 ltac:(simpl; lia)) as H0. simpl in H0. rewrite Nat.add_0_r in H0. injection H0 as ->.
  rewrite (IH (S k)); auto. intros i Hi. rewrite Nat.add_succ_comm. apply (H (S i)). simpl. lia.
Qed.

Lemma first_error_none_in cp log i vs y :
  first_error cp true log = None -> In (AChild i (Val vs, y)) log -> cp i (Val vs) = None.
Proof.
  induction log as [|it log IH]; simpl; [tauto|]. intros Hf [->|Hin].
  - simpl in Hf. destruct (cp i (Val vs)); congruence.
  - destruct it as [j [[ws|v|] z]|]; auto; try discriminate. destruct (cp j (Val ws)); [discriminate|auto].
Qed.
Lemma first_error_none_err cp b log i v y :
  first_error cp b log = None -> ~ In (AChild i (Err v, y)) log.
Proof.
  induction log as [|it log IH]; simpl; [tauto|]. intros Hf [->|Hin].
  - simpl in Hf. discriminate.
  - destruct it as [j [[ws|w|] z]|]; auto; try discriminate; try (apply IH in Hin; auto).
    destruct (if b then cp j (Val ws) else None); [discriminate|auto].
Qed.

Lemma of_child_in i log it : In it (of_child i log) -> In it log.
Proof. unfold of_child. rewrite filter_In. tauto. Qed.

Lemma wa_out_result cp ss log c y :
  let ws := wa_static cp ss in
  log_ok ss log ->
  (forall i, i < length ss -> exists c, of_child i log = [AChild i c]) ->
  fst (wa_complete ws (wfold ws (length ss) log) y) = [c] ->
  c = (when_all_result cp ss log, y).
Proof.
  intros ws Hok Hall Hc.
  assert (Hvs : ws_values ws = forallb (fun s => sends KVal (csigs s)) ss).
  { unfold ws, wa_static. simpl. clear. induction ss; simpl; f_equal; auto. }
  assert (Hss : ws_sends_stopped ws = existsb (fun s => sends KStop (csigs s)) ss).
  { unfold ws, wa_static. simpl. clear. induction ss; simpl; f_equal; auto. }
  unfold when_all_result. rewrite <- Hvs, <- Hss.
  pose proof (wfold_state cp Hok) as HS. cbv zeta in HS. fold ws in HS.
  assert (Hstop_uses : ws_sends_stopped ws = true -> ws_uses ws = true).
  { unfold ws, wa_static. simpl. rewrite !existsb_exists. intros (S & A & B). exists S.
    split; auto. rewrite B, orb_true_r. auto. }
  assert (Ecp : ws_cp ws = cp) by reflexivity. clearbody ws.
  unfold wa_complete in Hc. set (w := wfold ws (length ss) log) in *.
  destruct (first_error cp (ws_values ws) log) as [x|] eqn:Ef.
  - destruct HS as [Hst Herr]. rewrite Hst, Herr in Hc. simpl in Hc. congruence.
  - rewrite HS in Hc.
    assert (Hgen : (stop_seen log && ws_sends_stopped ws) = false ->
              fst (if ws_values ws
                   then match cat_opt (w_vals w) with Some vs => ([(Val vs, y)], []) | None => ([], [OUb]) end
                   else ([], [])) = [c] ->
              c = (Val (concat (map (fun i => child_values i log) (seq 0 (length ss)))), y)).
    { intros Hns Hc'. destruct (ws_values ws) eqn:Ev; [|discriminate].
      assert (Hcat : cat_opt (w_vals w) = Some (concat (map (fun i => child_values i log) (seq 0 (length ss))))).
      { rewrite <- (wfold_vals_len ws (length ss) log) at 1. apply cat_opt_all.
        intros i Hi. unfold w in Hi |- *. rewrite wfold_vals_len in Hi. simpl.
        destruct (Hall i Hi) as ([ci z] & Hci).
        assert (Hin : In (AChild i (ci, z)) log).
        { apply (@of_child_in i). rewrite Hci. simpl; auto. }
        rewrite child_values_of, Hci. simpl.
        destruct ci as [vs|v|].
        - rewrite Nat.eqb_refl. eapply wfold_vals; eauto. rewrite Ecp. eapply first_error_none_in; eauto.
        - exfalso. eapply first_error_none_err; eauto.
        - exfalso. destruct (Hok _ _ Hin) as (s & Hs & Hcf). apply sends_conforms in Hcf. simpl in Hcf.
          assert (A1 : stop_seen log = true).
          { apply existsb_exists. exists (AChild i (Stop, z)). auto. }
          assert (A2 : ws_sends_stopped ws = true).
          { rewrite Hss. apply existsb_exists. exists s. split; auto. eapply nth_error_In; eauto. }
          rewrite A1, A2 in Hns. discriminate. }
      rewrite Hcat in Hc'. simpl in Hc'. congruence. }
    destruct (stop_seen log) eqn:Es; destruct (ws_sends_stopped ws) eqn:Est; simpl in *.
    + rewrite Hstop_uses in Hc by auto. simpl in Hc. congruence.
    + apply Hgen; auto. destruct (ws_uses ws); exact Hc.
    + rewrite andb_false_r in Hc. apply Hgen; auto.
    + rewrite andb_false_r in Hc. apply Hgen; auto.
Qed.

Lemma node_log_ok ctx e stp ss evs rs log :
  Forall wt ss -> node_log ctx e stp ss evs rs log -> log_ok ss log.
Proof.
  intros Hw HN i c Hin. destruct (node_log_facts Hw HN) as [HR (HS1 & HS2 & HS3)].
  assert (Hin' : In (AChild i c) (of_child i log)).
  { unfold of_child. apply filter_In. rewrite Nat.eqb_refl. auto. }
  destruct (nth_error rs i) as [r|] eqn:Er.
  - rewrite (HS1 _ _ Er) in Hin'. apply in_map_iff in Hin'. destruct Hin' as (c' & E & Hin').
    injection E as ->. destruct (F2_nth _ HR Er) as (s & Hs & Hre). exists s. split; auto.
    assert (Hws : wt s) by (rewrite Forall_forall in Hw; eapply Hw, nth_error_In; eauto).
    destruct (reached_ok Hws Hre) as [_ [(Hc & _)|(c0 & Hc & Hcf & _)]]; rewrite Hc in Hin'; simpl in Hin'; [tauto|].
    destruct Hin' as [->|[]]. auto.
  - rewrite HS2 in Hin'; [destruct Hin'|]. apply nth_error_None in Er. auto.
Qed.

Lemma wt_all_forall cp ss : forall i, wt_all cp i ss -> Forall wt ss.
Proof. induction ss; simpl; intros; constructor; try tauto. eapply IHss. apply H. Qed.

Lemma sum_full (l : list nat) : (forall x, In x l -> x <= 1) -> sum l = length l -> forall x, In x l -> x = 1.
Proof.
  induction l; simpl; [tauto|]. intros H E x Hx.
  assert (sum l <= length l).
  { clear - H. induction l; simpl; auto. pose proof (H a0 (or_intror (or_introl eq_refl))).
    assert (sum l <= length l). { apply IHl. intros. apply H. simpl in *. tauto. } lia. }
  pose proof (H a (or_introl eq_refl)). destruct Hx as [<-|Hx]; [lia|]. apply IHl; auto. lia.
Qed.

Theorem when_all_law cp ss e ctx evs r :
  wt (WhenAll cp ss) -> run (start e ctx (WhenAll cp ss)) evs r ->
  exists rs log,
    node_log ctx e (ws_uses (wa_static cp ss) && e_stop e) ss evs rs log /\
    (* each child completed at most once, and exactly the logged completions happened *)
    (forall i, i < length ss ->
       exists ri, nth_error rs i = Some ri /\
         forall c, In (AChild i c) log <-> r_calls ri = [c]) /\
    r_calls r = (if done_count log =? length ss
                 then [(when_all_result cp ss log, last_ctx ctx log)] else []).
Proof.
  intros Hw Hr. pose proof (run_start_ok Hw Hr) as Hres.
  destruct Hw as [Hne Hw]. pose proof (wt_all_forall cp ss 0 Hw) as Hws.
  destruct (@winvr_run cp ss e ctx _ _ _ Hws Hr [] (winvr_start cp e ctx Hws Hne)) as (rs & log & HN & Ho & Hc).
  simpl in HN. exists rs, log. split; auto.
  destruct (node_log_facts Hws HN) as [HR (HS1 & HS2 & HS3)]. pose proof (Forall2_len HR) as HL.
  assert (Hch : forall i, i < length ss ->
       exists ri, nth_error rs i = Some ri /\ length (r_calls ri) <= 1 /\
         forall c, In (AChild i c) log <-> r_calls ri = [c]).
  { intros i Hi. destruct (nth_error rs i) as [ri|] eqn:Er.
    2:{ apply nth_error_None in Er. lia. }
    exists ri. split; auto. destruct (F2_nth _ HR Er) as (s & Hs & Hre).
    assert (wt s) by (rewrite Forall_forall in Hws; eapply Hws, nth_error_In; eauto).
    pose proof (reached_one H Hre) as H1. split; auto. intros c.
    assert (Hio : In (AChild i c) log <-> In (AChild i c) (of_child i log)).
    { unfold of_child. rewrite filter_In, Nat.eqb_refl. tauto. }
    rewrite Hio, (HS1 _ _ Er), in_map_iff. split.
    - intros (c' & E & Hin). injection E as ->. destruct (r_calls ri) as [|? [|]]; simpl in *; try tauto; try lia.
      destruct Hin as [->|[]]. auto.
    - intros ->. exists c. simpl. auto. }
  split. { intros i Hi. destruct (Hch i Hi) as (ri & A & _ & B). eauto. }
  rewrite Hc. unfold wa_out. rewrite wfold_cnt.
  assert (Hle : done_count log <= length ss) by (rewrite HS3, HL; eapply ncalls_le; eauto).
  destruct (done_count log =? length ss) eqn:Ed.
  - apply Nat.eqb_eq in Ed. rewrite Ed, Nat.sub_diag. simpl.
    assert (Hcc : exists c, fst (wa_complete (wa_static cp ss) (wfold (wa_static cp ss) (length ss) log) (last_ctx 0 log)) = [c]).
    { unfold wa_out in Hc. rewrite wfold_cnt, Ed, Nat.sub_diag in Hc. simpl in Hc. rewrite <- Hc.
      destruct Hres as [_ [(_ & Hl & _)|(c & -> & _)]]; eauto. exfalso.
      rewrite Ho in Hl. simpl in Hl. apply existsb_exists in Hl. destruct Hl as (o & Hin & Hl).
      apply in_map_iff in Hin. destruct Hin as (ri & <- & Hin). apply In_nth_error in Hin. destruct Hin as (i & Hi).
      destruct (F2_nth _ HR Hi) as (s & Hs & Hre).
      assert (wt s) by (rewrite Forall_forall in Hws; eapply Hws, nth_error_In; eauto).
      destruct (reached_ok H Hre) as [_ [(Hc0 & _)|(c & _ & _ & Hl0)]]; [|congruence].
      pose proof (ncalls_lt i Hws HR Hi Hc0). lia. }
    destruct Hcc as (c & Hcc). rewrite Hcc. f_equal.
    assert (Hall : forall i, i < length ss -> exists c, of_child i log = [AChild i c]).
    { intros i Hi. destruct (Hch i Hi) as (ri & Hri & Hlen & _). rewrite (HS1 _ _ Hri).
      assert (Hone : length (r_calls ri) = 1).
      { apply (@sum_full (map (fun r => length (r_calls r)) rs)).
        - intros x Hx. apply in_map_iff in Hx. destruct Hx as (r1 & <- & Hx).
          apply In_nth_error in Hx. destruct Hx as (j & Hj).
          destruct (F2_nth _ HR Hj) as (s & Hs & Hre).
          assert (wt s) by (rewrite Forall_forall in Hws; eapply Hws, nth_error_In; eauto).
          eapply reached_one; eauto.
        - rewrite map_length. unfold ncalls in HS3. lia.
        - apply in_map_iff. exists ri. split; auto. eapply nth_error_In; eauto. }
      destruct (r_calls ri) as [|c0 [|]]; simpl in *; try lia. eauto. }
    assert (Hlast : last_ctx 0 log = last_ctx ctx log).
    { destruct (Hall 0) as (c0 & H0). { destruct ss; [congruence|simpl; lia]. }
      assert (Hin : In (AChild 0 c0) log) by (apply (@of_child_in 0); rewrite H0; simpl; auto).
      assert (Hd : forall d d', last_ctx d log = last_ctx d' log).
      { clear - Hin. induction log as [|[]]; simpl in *; intros; auto; try tauto.
        destruct Hin as [?|?]; [discriminate|]. auto. }
      apply Hd. }
    rewrite <- Hlast. eapply wa_out_result; eauto. eapply node_log_ok; eauto.
  - apply Nat.eqb_neq in Ed. destruct (length ss - done_count log) eqn:E; [lia|]. auto.
Qed.
