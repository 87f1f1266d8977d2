(** C67: fork_join runs its predecessor once and gives every branch the stored result. *)
From Coq Require Import List Arith Bool Lia.
From Verif Require Import Conc ForkJoinModel.
Import ListNotations.
Set Implicit Arguments.

(** ** Specification: which event is allowed after which events (latest first) *)
Section Spec.
Variable n : nat.   (* the number of branches *)

(** what is stored for the branches: the child's result, or the exception its copy threw *)
Definition stored (pre : list event) (r : res) := exists r0 t, In (EResult r0 t) pre /\ r = if t then RX else r0.
Definition failed (r : res) := match r with RE _ | RX => True | _ => False end.
Definition never (P : event -> Prop) (l : list event) := forall e, In e l -> ~ P e.

(** the result of the whole, given what has happened *)
Definition right_outcome (pre : list event) (r : res) : Prop :=
  match n with
  | 0 => r = RV []
  | 1 => In (EEnd 0 r) pre
  | _ =>
    match r with
    | RE _ | RX => (* the first error *)
        exists post i pre', pre = post ++ EEnd i r :: pre' /\ never (fun e => exists j r', e = EEnd j r' /\ failed r') pre'
    | RS => never (fun e => exists j r', e = EEnd j r' /\ failed r') pre /\ ((exists i, In (EEnd i RS) pre) \/ In EStop pre)
    | RV vs => (* no error, nothing stopped; the values of the branches in the order of the branches *)
        never (fun e => exists j r', e = EEnd j r' /\ failed r') pre /\ (forall i, ~ In (EEnd i RS) pre) /\ ~ In EStop pre
        /\ exists f, (forall i, i < n -> In (EEnd i (RV (f i))) pre) /\ vs = flat_map f (seq 0 n)
    end
  end.

Definition allowed (e : event) (pre : list event) : Prop :=
  match e with
  | EConn i => i < n /\ ~ In (EConn i) pre
  | EChild => ~ In EChild pre
  | EStart => In EChild pre /\ ~ In EStart pre /\ ~ In EGone pre
  | EResult _ _ => In EStart pre /\ (forall r t, ~ In (EResult r t) pre) /\ ~ In EChildGone pre
  | EChildGone => In EChild pre /\ ~ In EChildGone pre
  | EBegin i => i < n /\ In EChildGone pre /\ ~ In (EBegin i) pre /\ (exists r, stored pre r)
  | ERead i r => In (EBegin i) pre /\ (forall r', ~ In (EEnd i r') pre) /\ stored pre r /\ ~ In EGone pre
  | EEnd i _ => In (EBegin i) pre /\ (forall r', ~ In (EEnd i r') pre)
  | EComplete r => (forall r', ~ In (EComplete r') pre) /\ In EStart pre /\ (forall i, i < n -> exists r', In (EEnd i r') pre) /\ right_outcome pre r /\ ~ In EGone pre
  | EStop => In EStart pre
  | EGone => ~ In EGone pre /\ In EChildGone pre /\ (~ In EStart pre \/ exists r, In (EComplete r) pre)
  | ETerm => ~ In EStart pre
  | EThrow | EBad => False
  end.
End Spec.

(** ** Proof *)
Fixpoint each (P : event -> list event -> Prop) (l : list event) : Prop :=
  match l with [] => True | e :: l => P e l /\ each P l end.
Lemma each_split P l : each P l -> forall post e pre, l = post ++ e :: pre -> P e pre.
Proof.
  induction l as [|a l IH]; intros H post e pre E.
  - destruct post; discriminate.
  - destruct post as [|b post]; simpl in E; inversion E; subst; [apply H|]. eapply IH; [apply H|eauto].
Qed.

Fixpoint ends (l : list event) : list res :=
  match l with [] => [] | EEnd _ r :: l => r :: ends l | _ :: l => ends l end.

Definition was_started (b : bst) := match b with BRun | BEnd _ => True | _ => False end.
Definition isend (b : bst) := match b with BEnd _ => True | _ => False end.
(** what each place of the operation says about the branches and the child *)
Definition place (n : nat) (s : st) : Prop :=
  match at_ s with
  | PConn k => k <= n /\ (forall i b, nth_error (kids s) i = Some b -> b = if i <? k then BConn else BNo) /\ child s = KNone /\ cache s = None
  | PChild => (forall i b, nth_error (kids s) i = Some b -> b = BConn) /\ child s = KNone /\ cache s = None
  | PReady | PRun => (forall i b, nth_error (kids s) i = Some b -> b = BConn) /\ child s = KLive /\ cache s = None
  | PDes => (forall i b, nth_error (kids s) i = Some b -> b = BConn) /\ child s = KLive /\ cache s <> None
  | PFork k => k <= n /\ (forall i b, nth_error (kids s) i = Some b -> if i <? k then was_started b else b = BConn) /\ child s = KGone /\ cache s <> None
  | PWait => (forall i b, nth_error (kids s) i = Some b -> was_started b) /\ child s = KGone /\ cache s <> None
  | PDone => (forall i b, nth_error (kids s) i = Some b -> isend b) /\ child s = KGone /\ cache s <> None
  | PTerm => (forall i b, nth_error (kids s) i = Some b -> ~ was_started b) /\ child s = KNone /\ cache s = None
  | PGone => child s = KGone /\ (match cache s with None => forall i b, nth_error (kids s) i = Some b -> b = BConn | Some _ => forall i b, nth_error (kids s) i = Some b -> isend b end)
  end.
Definition started_pc (s : st) := match at_ s with PConn _ | PChild | PReady | PTerm => False | PGone => cache s <> None | _ => True end.
Definition complete_pc (s : st) := match at_ s with PDone => True | PGone => cache s <> None | _ => False end.

Definition completed (l : list event) := exists r, In (EComplete r) l.
Record inv (n : nat) (c : cfg) : Prop := {
  i_len : length (kids (fst c)) = n;
  i_place : place n (fst c);
  i_conn : forall i, In (EConn i) (snd c) <-> exists b, nth_error (kids (fst c)) i = Some b /\ b <> BNo;
  i_child : In EChild (snd c) <-> child (fst c) <> KNone;
  i_gonec : In EChildGone (snd c) <-> child (fst c) = KGone;
  i_start : In EStart (snd c) <-> started_pc (fst c);
  i_res : forall r, cache (fst c) = Some r <-> stored (snd c) r;
  i_begin : forall i, In (EBegin i) (snd c) <-> exists b, nth_error (kids (fst c)) i = Some b /\ was_started b;
  i_end : forall i r, In (EEnd i r) (snd c) <-> nth_error (kids (fst c)) i = Some (BEnd r);
  i_order : order (fst c) = ends (snd c);
  i_ext : ext (fst c) = true <-> In EStop (snd c);
  i_compl : completed (snd c) <-> complete_pc (fst c);
  i_gone : In EGone (snd c) <-> at_ (fst c) = PGone;
  i_ok : each (allowed n) (snd c)
}.

Lemma ends_in l r : In r (ends l) <-> exists i, In (EEnd i r) l.
Proof.
  induction l as [|e l IH]; simpl.
  - split; [tauto|intros [i []]].
  - destruct e; simpl; rewrite ?IH; split; intros H.
    all: try (destruct H as [j [H|H]]; [discriminate|eauto]).
    all: try (destruct H as [j H]; eauto; fail).
    + destruct H as [<-|[j H]]; eauto.
    + destruct H as [j [H|H]]; [inversion H; auto|eauto].
Qed.

Lemma first_err_some l e : first_err (ends l) = Some e ->
  is_err e = true /\ exists post i pre, l = post ++ EEnd i e :: pre /\ first_err (ends pre) = None.
Proof.
  induction l as [|a l IH]; simpl; [discriminate|].
  destruct a; simpl; intros H.
  all: try (destruct (IH H) as [A (post & j & pre & -> & B)]; split; [exact A|]; eexists (_ :: post), j, pre; split; [reflexivity|exact B]).
  destruct (first_err (ends l)) eqn:E.
  - inversion H; subst r0. destruct (IH eq_refl) as [A (post & j & pre & -> & B)]. split; [exact A|]. eexists (_ :: post), j, pre; split; [reflexivity|exact B].
  - destruct (is_err r) eqn:E2; [|discriminate]. inversion H; subst. split; [exact E2|]. exists [], i, l. auto.
Qed.
Lemma first_err_none l : first_err l = None -> forall r, In r l -> is_err r = false.
Proof.
  induction l as [|a l IH]; simpl; intros H r [].
  - subst. destruct (first_err l); [discriminate|]. destruct (is_err r); congruence.
  - destruct (first_err l); [discriminate|]. auto.
Qed.
Lemma is_err_failed r : failed r <-> is_err r = true.
Proof. destruct r; simpl; split; auto; discriminate. Qed.
Lemma no_err l : first_err (ends l) = None -> never (fun e => exists j r', e = EEnd j r' /\ failed r') l.
Proof.
  intros H e He (j & r & -> & F). apply is_err_failed in F. assert (In r (ends l)) by (apply ends_in; eauto).
  rewrite (first_err_none _ H _ H0) in F. discriminate.
Qed.

Lemma flat_map_nth (ks : list bst) (g : bst -> list nat) :
  flat_map g ks = flat_map (fun i => match nth_error ks i with Some b => g b | None => [] end) (seq 0 (length ks)).
Proof.
  induction ks as [|b ks IH]; simpl; auto. f_equal. rewrite IH. rewrite <- seq_shift, flat_map_concat_map, flat_map_concat_map, map_map. reflexivity.
Qed.

Lemma outcome_right n s log :
  length (kids s) = n -> (forall i b, nth_error (kids s) i = Some b -> isend b) ->
  (forall i r, In (EEnd i r) log <-> nth_error (kids s) i = Some (BEnd r)) ->
  order s = ends log -> (ext s = true <-> In EStop log) ->
  right_outcome n log (outcome s).
Proof.
  intros L E IE IO IX.
  assert (X : outcome s = match kids s with [] => RV [] | [BEnd r] => r | ks => match first_err (order s) with Some e => e | None => if existsb is_stp (order s) || ext s then RS else RV (flat_map values ks) end end) by reflexivity.
  destruct (kids s) as [|b [|b' ks]] eqn:K; simpl in L; subst n.
  - rewrite X. reflexivity.
  - specialize (E 0 b eq_refl). destruct b; try contradiction. rewrite X. apply IE. reflexivity.
  - replace (outcome s) with (match first_err (order s) with Some e => e | None => if existsb is_stp (order s) || ext s then RS else RV (flat_map values (b :: b' :: ks)) end) by (rewrite X; destruct b; reflexivity).
    clear X. unfold right_outcome.
    rewrite IO. destruct (first_err (ends log)) eqn:F.
    + destruct (first_err_some _ F) as [A (post & i & pre & P & N)]. apply no_err in N.
      destruct r; try discriminate; exists post, i, pre; auto.
    + pose proof (no_err _ F) as N. destruct (existsb is_stp (ends log)) eqn:S.
      * simpl. split; [exact N|]. left. apply existsb_exists in S. destruct S as [r [S1 S2]]. destruct r; try discriminate. apply ends_in in S1. exact S1.
      * assert (S' : forall i, ~ In (EEnd i RS) log).
        { intros i Hi. assert (H : existsb is_stp (ends log) = true); [|congruence]. apply existsb_exists. exists RS. split; auto. apply ends_in; eauto. }
        destruct (ext s); simpl.
        -- split; [exact N|]. right. apply IX; reflexivity.
        -- split; [exact N|]. split; [exact S'|]. split; [intros Hs; apply IX in Hs; discriminate|].
           exists (fun i => match nth_error (b :: b' :: ks) i with Some x => values x | None => [] end). split.
           ++ intros i Hi. destruct (nth_error (b :: b' :: ks) i) as [x|] eqn:Q.
              ** specialize (E _ _ Q). destruct x as [| | |r]; try contradiction. pose proof (proj2 (IE i r) Q) as Hr.
                 destruct r; simpl; auto.
                 --- exfalso. apply (N _ Hr). exists i, (RE e). simpl. auto.
                 --- exfalso. apply (N _ Hr). exists i, RX. simpl; auto.
                 --- exfalso. apply (S' _ Hr).
              ** apply nth_error_None in Q. simpl in Q. lia.
           ++ exact (flat_map_nth (b :: b' :: ks) values).
Qed.

Lemma nth_repeat_in {A} (x : A) n i b : nth_error (repeat x n) i = Some b -> b = x.
Proof. apply nth_repeat_some. Qed.

Lemma inv_init n : inv n (init n, []).
Proof.
  split; simpl; unfold stored, completed; simpl; auto.
  - apply repeat_length.
  - split; [lia|]. split; [|auto]. intros i b H. apply nth_repeat_some in H. auto.
  - intros i; split; [tauto|]. intros [b [H N]]. apply nth_repeat_some in H. contradiction.
  - split; [tauto|congruence].
  - split; [tauto|discriminate].
  - unfold started_pc; simpl. tauto.
  - intros r; split; [discriminate|]. intros (r0 & t & [] & _).
  - intros i; split; [tauto|]. intros [b [H N]]. apply nth_repeat_some in H. subst. contradiction.
  - intros i r; split; [tauto|]. intros H. apply nth_repeat_some in H. discriminate.
  - split; [discriminate|tauto].
  - unfold complete_pc; simpl. split; [intros [r []]|tauto].
  - split; [tauto|discriminate].
Qed.

Lemma in_ne (e x : event) l : e <> x -> (In x (e :: l) <-> In x l).
Proof. simpl. intros N; split; [intros [H|H]; [contradiction|auto]|auto]. Qed.
Lemma stored_ne e l r : (forall r t, e <> EResult r t) -> (stored (e :: l) r <-> stored l r).
Proof.
  intros N; split; intros (r0 & t & H & E).
  - destruct H as [H|H]; [destruct (N _ _ H)|]. exists r0, t; auto.
  - exists r0, t; simpl; auto.
Qed.
Lemma completed_ne e l : (forall r, e <> EComplete r) -> (completed (e :: l) <-> completed l).
Proof.
  intros N; split; intros (r & H).
  - destruct H as [H|H]; [destruct (N _ H)|]. exists r; auto.
  - exists r; simpl; auto.
Qed.

Ltac ne := repeat first [rewrite in_ne by discriminate | rewrite stored_ne by discriminate | rewrite completed_ne by discriminate].
Ltac frame := intros; ne; auto; fail.
Ltac frame2 := match goal with |- _ <-> _ => idtac end; ne; unfold started_pc, complete_pc; simpl; try match goal with Q : at_ _ = _ |- _ => rewrite ?Q end; intuition discriminate.

Lemma settle_inv n s log ev s' ev' : inv n (s, rev ev ++ log) -> settle s ev = (s', ev') -> inv n (s', rev ev' ++ log).
Proof.
  intros I H. unfold settle in H. destruct (at_ s) as [k| | | | |k| | | |] eqn:P; try (inversion H; subst; exact I).
  destruct (forallb ended (kids s)) eqn:E; inversion H; subst; [|exact I]. clear H.
  rewrite rev_app_distr. cbn [rev app]. destruct I as [L PL IC ICh ICg IS IR IB IE IO IX IF IG OK].
  cbn [fst snd] in *. unfold place, started_pc, complete_pc in *. rewrite P in *. destruct PL as (A & B & C).
  set (log' := rev ev ++ log) in *.
  assert (AE : forall i b, nth_error (kids s) i = Some b -> isend b).
  { intros i b Q. apply nth_error_In in Q. rewrite forallb_forall in E. specialize (E _ Q). destruct b; simpl in *; auto; discriminate. }
  split; cbn [fst snd]; try solve [frame|frame2].
  - unfold place; simpl. auto.
  - unfold complete_pc; simpl. split; auto. intros _. exists (outcome s). simpl; auto.
  - simpl. split; auto. split; [intros r' X; apply IF; exists r'; auto|]. split; [apply IS; auto|].
    split; [|split; [|intros X; apply IG in X; discriminate]].
    + intros i Hi. destruct (nth_error (kids s) i) as [b|] eqn:Q; [|apply nth_error_None in Q; lia].
      pose proof (AE _ _ Q) as F. destruct b; try contradiction. exists r. apply IE; auto.
    + apply outcome_right; auto.
Qed.

Lemma running_place n s log i : inv n (s, log) -> nth_error (kids s) i = Some BRun ->
  ((exists k, at_ s = PFork k) \/ at_ s = PWait) /\ child s = KGone /\ cache s <> None.
Proof.
  intros I Q. pose proof (i_place I) as PL. simpl in PL. unfold place in PL.
  destruct (at_ s) as [k| | | | |k| | | |]; try (destruct PL as (A & B & C); specialize (A _ _ Q); solve [discriminate|contradiction|destruct A; exact I]); eauto.
  - destruct PL as (_ & A & _). apply A in Q. destruct (i <? k); discriminate.
  - destruct PL as (_ & A & B & C). eauto.
  - destruct PL as (_ & B & C). eauto.
  - destruct PL as (A & _). exfalso. apply (A _ _ Q). simpl; auto.
  - destruct PL as (A & B). destruct (cache s); apply B in Q; [contradiction|discriminate].
Qed.

Lemma step_inv n s log l s' ev : inv n (s, log) -> step s l = Some (s', ev) -> inv n (s', rev ev ++ log).
Proof.
  intros I H. pose proof I as I0. destruct I as [L PL IC ICh ICg IS IR IB IE IO IX IF IG OK].
  cbn [fst snd] in *. unfold step in H. unfold place, started_pc, complete_pc in *.
  destruct l as [th| |r th| |i|i r| |].
  - (* constructor *)
    destruct th; destruct (at_ s) as [k| | | | |k| | | |] eqn:P; try discriminate.
    + inversion H; subst s' ev. split; cbn [fst snd rev app]; try solve [frame|frame2].
      * simpl. destruct PL as (_ & A & B & C). repeat split; auto. intros i b Q. apply A in Q. subst b. destruct (i <? k); auto.
      * simpl. split; auto. rewrite IS. tauto.
    + inversion H; subst s' ev. split; cbn [fst snd rev app]; try solve [frame|frame2].
      * simpl. destruct PL as (A & B & C). repeat split; auto. intros i b Q. apply A in Q. subst b. auto.
      * simpl. split; auto. rewrite IS. tauto.
    + destruct PL as (A & B & C & D). destruct (Nat.ltb_spec k (length (kids s))) as [K|K]; inversion H; subst s' ev.
      * assert (exists b, nth_error (kids s) k = Some b) as [b0 Q0] by (destruct (nth_error (kids s) k) eqn:Q; eauto; apply nth_error_None in Q; lia).
        pose proof (B _ _ Q0) as B0. rewrite Nat.ltb_irrefl in B0. subst b0.
        split; cbn [fst snd rev app]; try solve [frame|frame2].
        -- simpl. rewrite upd_length; auto.
        -- unfold place; simpl. split; [lia|]. split; [|auto]. intros i b. rewrite (@nth_upd _ _ _ _ _ _ Q0). destruct (Nat.eqb_spec k i) as [->|N].
           ++ intros X; inversion X. rewrite (proj2 (Nat.ltb_lt i (S i))); auto.
           ++ intros X. rewrite (B _ _ X). destruct (Nat.ltb_spec i k); destruct (Nat.ltb_spec i (S k)); auto; lia.
        -- simpl. intros i. rewrite (@nth_upd _ _ _ _ _ _ Q0). rewrite IC. destruct (Nat.eqb_spec k i) as [->|N].
           ++ split; [intros _; exists BConn; split; [auto|discriminate]|auto].
           ++ split; [intros [X|X]; [congruence|auto]|auto].
        -- intros i. ne. cbn [kids w_at w_kids w_order]. rewrite IB. rewrite (@nth_upd _ _ _ _ _ _ Q0). destruct (Nat.eqb_spec k i) as [->|N]; [|tauto].
           split; [intros [b [X Y]]|intros [b [X Y]]]; [rewrite Q0 in X|]; inversion X; subst; destruct Y.
        -- intros i r. ne. cbn [kids w_at w_kids w_order]. rewrite IE. rewrite (@nth_upd _ _ _ _ _ _ Q0). destruct (Nat.eqb_spec k i) as [->|N]; [|tauto].
           rewrite Q0. split; discriminate.
        -- simpl. split; auto. split; [lia|]. rewrite IC. intros [b [X Y]]. rewrite Q0 in X. congruence.
      * split; cbn [fst snd rev app]; try solve [frame|frame2].
        -- unfold place; simpl. repeat split; auto. intros i b X. rewrite (B _ _ X). destruct (Nat.ltb_spec i k); auto.
           assert (i < length (kids s)) by (apply nth_error_Some; congruence). lia.
    + destruct PL as (A & B & C). inversion H; subst s' ev. split; cbn [fst snd rev app]; try solve [frame|frame2].
      * unfold place; simpl. auto.

      * ne. rewrite ICg. simpl. rewrite B. split; discriminate.
      * simpl. split; auto. rewrite ICh. congruence.
  - (* start *)
    destruct (at_ s) as [k| | | | |k| | | |] eqn:P; try discriminate.
    destruct PL as (A & B & C). inversion H; subst s' ev. split; cbn [fst snd rev app]; try solve [frame|frame2].
    * unfold place; simpl. auto.
    * simpl. split; auto. rewrite ICh, IS, IG, B. repeat split; auto; discriminate.
  - (* result *)
    destruct (at_ s) as [k| | | | |k| | | |] eqn:P; try discriminate.
    destruct PL as (A & B & C). inversion H; subst s' ev. 
    assert (NR : forall r t, ~ In (EResult r t) log) by (intros r1 t1 X; assert (Y : stored log (if t1 then RX else r1)) by (exists r1, t1; auto); apply IR in Y; congruence).
    split; cbn [fst snd rev app]; try solve [frame|frame2].
    * unfold place; simpl. repeat split; auto. discriminate.
    * simpl. intros r'. unfold stored. split.
      -- intros X; inversion X. exists r, th. simpl; auto.
      -- intros (r0 & t & [X|X] & ->); [inversion X; auto|destruct (NR _ _ X)].
    * simpl. split; auto. rewrite IS, ICg, B. repeat split; auto. discriminate.
  - (* go *)
    destruct (at_ s) as [k| | | | |k| | | |] eqn:P; try discriminate.
    + destruct PL as (A & B & C). unfold kill in H. rewrite B in H. inversion H; subst s' ev. split; cbn [fst snd rev app]; try solve [frame|frame2].
      * unfold place; simpl. repeat split; auto. lia.
      * ne. cbn [child w_at w_child]. rewrite ICh, B. split; discriminate.
        * simpl. split; auto. rewrite ICh, ICg, B. split; discriminate.
    + destruct PL as (A & B & C & D). destruct (Nat.ltb_spec k (length (kids s))) as [K|K].
      * inversion H; subst s' ev.
        assert (exists b, nth_error (kids s) k = Some b) as [b0 Q0] by (destruct (nth_error (kids s) k) eqn:Q; eauto; apply nth_error_None in Q; lia).
        pose proof (B _ _ Q0) as B0. rewrite Nat.ltb_irrefl in B0. subst b0.
        split; cbn [fst snd rev app]; try solve [frame|frame2].
        -- simpl. rewrite upd_length; auto.
        -- unfold place; simpl. split; [lia|]. split; [|auto]. intros i b. rewrite (@nth_upd _ _ _ _ _ _ Q0). destruct (Nat.eqb_spec k i) as [->|N].
           ++ intros X; inversion X. rewrite (proj2 (Nat.ltb_lt i (S i))); simpl; auto.
           ++ intros X. specialize (B _ _ X). destruct (Nat.ltb_spec i k); destruct (Nat.ltb_spec i (S k)); auto; lia.
        -- intros i. ne. cbn [kids w_at w_kids w_order]. rewrite IC. rewrite (@nth_upd _ _ _ _ _ _ Q0). destruct (Nat.eqb_spec k i) as [->|N]; [|tauto].
           split; intros _; [exists BRun|exists BConn]; split; auto; discriminate.
        -- simpl. intros i. rewrite IB. rewrite (@nth_upd _ _ _ _ _ _ Q0). destruct (Nat.eqb_spec k i) as [->|N].
           ++ split; [intros _; exists BRun; simpl; auto|auto].
           ++ split; [intros [X|X]; [congruence|auto]|auto].
        -- intros i r. ne. cbn [kids w_at w_kids w_order]. rewrite IE. rewrite (@nth_upd _ _ _ _ _ _ Q0). destruct (Nat.eqb_spec k i) as [->|N]; [|tauto].
           rewrite Q0. split; discriminate.
        -- simpl. split; auto. repeat split; [lia|apply ICg; auto| |].
           ++ rewrite IB. intros [b [X Y]]. rewrite Q0 in X. inversion X; subst. destruct Y.
           ++ destruct (cache s) as [r|] eqn:Q; [|congruence]. exists r. apply IR; auto.
      * assert (J : inv n (w_at s PWait, log)).
        { split; cbn [fst snd rev app]; try solve [frame|frame2].
          - unfold place; simpl. repeat split; auto. intros i b X. specialize (B _ _ X). destruct (Nat.ltb_spec i k); auto.
            assert (i < length (kids s)) by (apply nth_error_Some; congruence). lia. }
        eapply settle_inv with (ev := []) (s := w_at s PWait); [exact J|congruence].
  - (* read *)
    destruct (nth_error (kids s) i) as [[| | |r]|] eqn:Q; try discriminate. inversion H; subst s' ev. clear H.
    destruct (@running_place _ _ _ _ I0 Q) as (P & B & C). destruct (cache s) as [r|] eqn:K; [|congruence].
    assert (NG : ~ In EGone log) by (rewrite IG; destruct P as [[k ->]| ->]; discriminate).
    split; cbn [fst snd rev app]; try solve [frame].
    + exact (i_place I0).
    + ne. exact (i_start I0).
    + intros r'. ne. rewrite K. apply IR.
    + ne. exact (i_compl I0).
    + simpl. split; auto. split; [apply IB; exists BRun; simpl; auto|]. split; [intros r' X; apply IE in X; congruence|]. split; [apply IR; auto|auto].
  - (* end *)
    destruct (nth_error (kids s) i) as [[| | |r0]|] eqn:Q; try discriminate.
    destruct (@running_place _ _ _ _ I0 Q) as (P & B & C).
    assert (J : inv n (w_order (w_kids s (upd (kids s) i (BEnd r))) (r :: order s), EEnd i r :: log)).
    { assert (IB' : In (EBegin i) log) by (apply IB; exists BRun; simpl; auto).
      assert (IE' : forall r', ~ In (EEnd i r') log) by (intros r' X; apply IE in X; congruence).
      split; cbn [fst snd]; try solve [frame].
      - simpl. rewrite upd_length; auto.
      - unfold place. simpl. destruct P as [[k P]|P]; rewrite P in *.
        + destruct PL as (D & E & _). repeat split; auto. intros j b. rewrite (@nth_upd _ _ _ _ _ _ Q). destruct (Nat.eqb_spec i j) as [->|N].
          * intros X; inversion X; subst. specialize (E _ _ Q). destruct (j <? k); [simpl; auto|discriminate].
          * apply E.
        + destruct PL as (E & _). repeat split; auto. intros j b. rewrite (@nth_upd _ _ _ _ _ _ Q). destruct (Nat.eqb_spec i j) as [->|N].
          * intros X; inversion X; subst. simpl; auto.
          * apply E.
      - intros j. ne. cbn [kids w_at w_kids w_order]. rewrite IC, (@nth_upd _ _ _ _ _ _ Q). destruct (Nat.eqb_spec i j) as [->|N]; [|tauto].
        split; intros _; [exists (BEnd r)|exists BRun]; split; auto; discriminate.
      - intros j. ne. cbn [kids w_at w_kids w_order]. rewrite IB, (@nth_upd _ _ _ _ _ _ Q). destruct (Nat.eqb_spec i j) as [->|N]; [|tauto].
        split; intros _; [exists (BEnd r)|exists BRun]; split; simpl; auto.
      - intros j r'. cbn [kids w_at w_kids w_order]. rewrite (@nth_upd _ _ _ _ _ _ Q). simpl. rewrite IE. destruct (Nat.eqb_spec i j) as [->|N].
        + rewrite Q. split; [intros [X|X]; inversion X; auto|intros X; inversion X; auto].
        + split; [intros [X|X]; [inversion X; contradiction|auto]|auto].
      - simpl. congruence.
      - simpl. auto. }
    match type of H with Some ?x = _ => assert (H' : x = (s', ev)) by congruence end.
    eapply settle_inv; [|exact H']. simpl. exact J.
  - (* stop *)
    destruct (at_ s) as [k| | | | |k| | | |] eqn:P; try discriminate; inversion H; subst s' ev; (split; cbn [fst snd rev app]; try solve [frame|frame2]).
    * unfold place; simpl. rewrite P. auto.
    * simpl. split; auto. rewrite IS. auto.
    * unfold place; simpl. rewrite P. auto.
    * simpl. split; auto. rewrite IS. auto.
  - (* destroy *)
    destruct (at_ s) as [k| | | | |k| | | |] eqn:P; try discriminate.
    + destruct PL as (A & B & C). rewrite C in H. unfold kill in H. rewrite B in H. inversion H; subst s' ev. clear H.
      split; cbn [fst snd rev app]; try solve [frame].
      * unfold place; simpl. rewrite C. auto.
      * ne. cbn [child w_at w_child]. rewrite ICh, B. split; discriminate.
      * ne. simpl. tauto.
      * ne. rewrite IS. unfold started_pc; simpl. tauto.
      * ne. rewrite IF. unfold complete_pc; simpl. tauto.
      * simpl. tauto.
      * simpl. rewrite IG, ICh, ICg, IS, B. repeat split; auto; try discriminate.
        -- intros [X|X]; discriminate.
        -- left. intros [X|X]; [discriminate|auto].
    + destruct PL as (A & B & C). destruct (cache s) as [r|] eqn:K; [|congruence]. inversion H; subst s' ev. clear H.
      split; cbn [fst snd rev app]; try solve [frame].
      * unfold place; simpl. rewrite K. auto.
      * ne. rewrite IS. unfold started_pc; simpl. rewrite K. split; auto; discriminate.
      * intros r'. ne. cbn. rewrite K. apply IR.
      * ne. rewrite IF. unfold complete_pc; simpl. rewrite K. split; auto; discriminate.
      * simpl. tauto.
      * simpl. split; auto. rewrite IG, ICg. split; [discriminate|]. split; [auto|]. right. apply IF. auto.
Qed.

Lemma runs_inv n ls : forall c c', inv n c -> runs c ls = Some c' -> inv n c'.
Proof.
  induction ls as [|l ls IH]; simpl; intros c c' I H; [congruence|].
  unfold cstep in H. destruct c as [s log]; simpl in H. destruct (step s l) as [[s1 ev]|] eqn:E; [|discriminate].
  eapply IH; [|exact H]. eapply step_inv; eauto.
Qed.
Lemma reach_inv n c : reachable n c -> inv n c.
Proof. intros [ls H]. eapply runs_inv; [apply inv_init|exact H]. Qed.

(** ** Theorems *)
(** Every event comes only when it is allowed by what has happened before. *)
Theorem forkjoin_allowed n c : reachable n c ->
  forall post e pre, snd c = post ++ e :: pre -> allowed n e pre.
Proof. intros R. apply each_split. apply (i_ok (reach_inv R)). Qed.

(** number of events satisfying p *)
Lemma cnt_once (p : event -> bool) l :
  each (fun e pre => p e = true -> forall x, In x pre -> p x = false) l -> cnt p l <= 1.
Proof.
  induction l as [|a l IH]; simpl; intros H; [lia|]. destruct H as [H1 H2]. specialize (IH H2).
  destruct (p a); [|lia]. assert (cnt p l = 0) by (apply cnt_zero; auto). lia.
Qed.
Lemma each_imp (P Q : event -> list event -> Prop) l : (forall e pre, P e pre -> Q e pre) -> each P l -> each Q l.
Proof. intros H. induction l; simpl; auto. intros [A B]; auto. Qed.

Definition is_child_gone e := match e with EChildGone => true | _ => false end.
Definition is_complete e := match e with EComplete _ => true | _ => false end.
Definition is_result e := match e with EResult _ _ => true | _ => false end.
Definition is_begin i e := match e with EBegin j => i =? j | _ => false end.
Definition is_bad e := match e with EBad => true | _ => false end.

(** The receiver is completed at most once; the predecessor completes at most once and is destroyed at most once; no branch starts twice; nothing forbidden happens. *)
Theorem forkjoin_at_most_once n c : reachable n c ->
  cnt is_complete (snd c) <= 1 /\ cnt is_result (snd c) <= 1 /\ cnt is_child_gone (snd c) <= 1 /\ (forall i, cnt (is_begin i) (snd c) <= 1) /\ cnt is_bad (snd c) = 0.
Proof.
  intros R. pose proof (i_ok (reach_inv R)) as O. repeat split; try intros i.
  - apply cnt_once. eapply each_imp; [|exact O]. intros [] pre A B x X; try discriminate. destruct x; auto. destruct A as [A _]. destruct (A _ X).
  - apply cnt_once. eapply each_imp; [|exact O]. intros [] pre A B x X; try discriminate. destruct x; auto. destruct A as (_ & A & _). destruct (A _ _ X).
  - apply cnt_once. eapply each_imp; [|exact O]. intros [] pre A B x X; try discriminate. destruct x; auto. destruct A as [_ A]. destruct (A X).
  - apply cnt_once. eapply each_imp; [|exact O]. intros [] pre A B x X; try discriminate. destruct x; auto. simpl in *. destruct (Nat.eqb_spec i i0); [|discriminate]. destruct (Nat.eqb_spec i i1); auto.
    subst. destruct A as (_ & _ & A & _). destruct (A X).
  - apply cnt_zero. intros x X. destruct x; auto. apply in_split in X. destruct X as (p & q & E). destruct (@forkjoin_allowed _ _ R _ _ _ E).
Qed.

(** When the operation is gone, its predecessor has been destroyed exactly once, whether it was started or not. *)
Theorem forkjoin_child_destroyed_once n c : reachable n c -> In EGone (snd c) -> cnt is_child_gone (snd c) = 1.
Proof.
  intros R G. apply in_split in G. destruct G as (p & q & E). destruct (@forkjoin_allowed _ _ R _ _ _ E) as (_ & A & _).
  pose proof (forkjoin_at_most_once R) as (_ & _ & B & _). assert (0 < cnt is_child_gone (snd c)); [|lia].
  apply cnt_pos. exists EChildGone. split; auto. rewrite E. apply in_or_app. right. right. auto.
Qed.

(** Every branch that reads gets the predecessor's result (or the exception thrown by copying it), the same for all branches; by then the predecessor is gone. *)
Theorem forkjoin_same_result n c : reachable n c ->
  (forall i r, In (ERead i r) (snd c) -> (exists r0 t, In (EResult r0 t) (snd c) /\ r = if t then RX else r0) /\ In EChildGone (snd c))
  /\ (forall i j r r', In (ERead i r) (snd c) -> In (ERead j r') (snd c) -> r = r').
Proof.
  intros R. pose proof (reach_inv R) as I.
  assert (X : forall i r, In (ERead i r) (snd c) -> stored (snd c) r /\ In EChildGone (snd c)).
  { intros i r H. apply in_split in H. destruct H as (p & q & E). destruct (@forkjoin_allowed _ _ R _ _ _ E) as (A & _ & (r0 & t & B & C) & _). split.
    - exists r0, t. split; auto. rewrite E. apply in_or_app. right. right. auto.
    - apply in_split in A. destruct A as (p' & q' & E'). rewrite E' in E.
      assert (E2 : snd c = (p ++ ERead i r :: p') ++ EBegin i :: q') by (rewrite E, <- app_assoc; reflexivity).
      destruct (@forkjoin_allowed _ _ R _ _ _ E2) as (_ & G & _). rewrite E2. apply in_or_app. right. right. auto. }
  split; [exact X|]. intros i j r r' H H'. apply X in H, H'. destruct H as [H _], H' as [H' _].
  apply (i_res I) in H. apply (i_res I) in H'. congruence.
Qed.

(** The receiver is completed after all branches have ended, with the result when_all gives. *)
Theorem forkjoin_completes_after_branches n c : reachable n c ->
  forall post r pre, snd c = post ++ EComplete r :: pre ->
  (forall i, i < n -> exists r', In (EEnd i r') pre) /\ right_outcome n pre r.
Proof. intros R post r pre E. destruct (@forkjoin_allowed _ _ R _ _ _ E) as (_ & _ & A & B & _). auto. Qed.

(** Nothing is left hanging: while the operation has been started and has not completed, it can go on, a branch is running, or the predecessor is running. *)
Lemma settle_wait n ls : forall c c', inv n c -> (at_ (fst c) = PWait -> forallb ended (kids (fst c)) = false) -> runs c ls = Some c' ->
  at_ (fst c') = PWait -> forallb ended (kids (fst c')) = false.
Proof.
  induction ls as [|l ls IH]; simpl; intros c c' I W H; [inversion H; subst; auto|].
  unfold cstep in H. destruct c as [s log]; simpl in *. destruct (step s l) as [[s1 ev]|] eqn:E; [|discriminate].
  eapply IH; [eapply step_inv; eauto| |exact H]. simpl. clear H IH.
  assert (ST : forall x y s1 ev, settle x y = (s1, ev) -> at_ s1 = PWait -> forallb ended (kids s1) = false).
  { intros x y z e Hs P. unfold settle in Hs. destruct (at_ x) eqn:Q; try (inversion Hs; subst; congruence).
    destruct (forallb ended (kids x)) eqn:F; inversion Hs; subst; auto. discriminate P. }
  unfold step in E. destruct l as [[]| |r th| |i|i r| |].
  1,2,3,4: destruct (at_ s) eqn:P; try discriminate; try (destruct (_ <? _)); inversion E; subst; simpl; try discriminate; auto; congruence.
  - destruct (at_ s) eqn:P; try discriminate.
    + unfold kill in E. inversion E; subst; discriminate.
    + destruct (_ <? _); inversion E; subst; simpl; try discriminate. eauto.
  - destruct (nth_error (kids s) i) as [[]|]; try discriminate. inversion E; subst; auto.
  - destruct (nth_error (kids s) i) as [[]|]; try discriminate. inversion E; eauto.
  - destruct (at_ s) eqn:P; try discriminate; inversion E; subst; simpl; rewrite P; auto; discriminate.
  - destruct (at_ s) eqn:P; try discriminate; destruct (cache s); unfold kill in E; inversion E; subst; discriminate.
Qed.

Theorem forkjoin_progress n c : reachable n c -> In EStart (snd c) -> (forall r, ~ In (EComplete r) (snd c)) ->
  step (fst c) LGo <> None
  \/ (exists i, In (EBegin i) (snd c) /\ (forall r, ~ In (EEnd i r) (snd c)) /\ forall r, step (fst c) (LEnd i r) <> None)
  \/ ((forall r t, ~ In (EResult r t) (snd c)) /\ forall r t, step (fst c) (LResult r t) <> None).
Proof.
  intros R S NC. pose proof (reach_inv R) as I. destruct R as [ls R].
  pose proof (@settle_wait n ls _ _ (inv_init n) ltac:(simpl; discriminate) R) as W.
  apply (i_start I) in S. assert (NC' : ~ complete_pc (fst c)) by (intros X; apply (i_compl I) in X; destruct X as [r X]; apply (NC r X)).
  pose proof (i_place I) as PL. unfold place, started_pc, complete_pc in *. destruct (at_ (fst c)) eqn:P; try contradiction.
  - right. right. split.
    + intros r t X. assert (Y : stored (snd c) (if t then RX else r)) by (exists r, t; auto). apply (i_res I) in Y. destruct PL as (_ & _ & PL). congruence.
    + intros r t. unfold step. rewrite P. discriminate.
  - left. unfold step. rewrite P. unfold kill. discriminate.
  - left. unfold step. rewrite P. destruct (_ <? _); discriminate.
  - right. left. specialize (W eq_refl). destruct PL as (A & _).
    assert (exists i, nth_error (kids (fst c)) i = Some BRun) as [i Q].
    { clear -W A. induction (kids (fst c)) as [|b ks IH]; [discriminate|]. simpl in W.
      pose proof (A 0 b eq_refl) as B. destruct b; try contradiction.
      - exists 0; auto.
      - destruct IH as [i Q]; [exact W|intros i b; apply (A (S i))|]. exists (S i); auto. }
    exists i. split; [apply (i_begin I); exists BRun; simpl; auto|]. split.
    + intros r X. apply (i_end I) in X. congruence.
    + intros r. unfold step. rewrite Q. discriminate.
Qed.

(** The full claim would also say that an exception thrown while connecting reaches the caller of connect; the constructor is noexcept, and the program is terminated. *)
Theorem forkjoin_connect_throw_refuted n : exists c, reachable n c /\ In ETerm (snd c).
Proof. exists (w_at (init n) PTerm, [ETerm]). split; [|simpl; auto]. exists [LCtor true]. reflexivity. Qed.
(** Never does the exception reach the caller. *)
Theorem forkjoin_connect_never_throws n c : reachable n c -> ~ In EThrow (snd c).
Proof. intros R X. apply in_split in X. destruct X as (p & q & E). destruct (@forkjoin_allowed _ _ R _ _ _ E). Qed.

(** With no branch, the failure of the predecessor is lost: the whole completes with no values, whatever the predecessor did. *)
Theorem forkjoin_no_branch_refuted : forall r t, exists c, reachable 0 c /\ In (EResult r t) (snd c) /\ In (EComplete (RV [])) (snd c).
Proof.
  intros r t. eexists. split; [exists [LCtor false; LCtor false; LStart; LResult r t; LGo; LGo]; reflexivity|]. simpl. auto 10.
Qed.

(** ** Examples *)
(** Two branches; the second ends first; both see the values; the values come in the order of the branches. *)
Example ex_two : option_map (fun c => rev (snd c)) (runs (init 2, []) [LCtor false; LCtor false; LCtor false; LCtor false; LStart; LResult (RV [7]) false; LGo; LGo; LGo; LRead 1; LEnd 1 (RV [2]); LGo; LRead 0; LEnd 0 (RV [1]); LDestroy])
  = Some [EConn 0; EConn 1; EChild; EStart; EResult (RV [7]) false; EChildGone; EBegin 0; EBegin 1; ERead 1 (RV [7]); EEnd 1 (RV [2]); ERead 0 (RV [7]); EEnd 0 (RV [1]); EComplete (RV [1; 2]); EGone].
Proof. vm_compute. reflexivity. Qed.
(** The copy throws: the branches see the exception. *)
Example ex_throw : option_map (fun c => rev (snd c)) (runs (init 1, []) [LCtor false; LCtor false; LCtor false; LStart; LResult (RV [7]) true; LGo; LGo; LGo; LRead 0; LEnd 0 RX; LDestroy])
  = Some [EConn 0; EChild; EStart; EResult (RV [7]) true; EChildGone; EBegin 0; ERead 0 RX; EEnd 0 RX; EComplete RX; EGone].
Proof. vm_compute. reflexivity. Qed.
(** Never started: the child is destroyed with the operation. *)
Example ex_unstarted : option_map (fun c => rev (snd c)) (runs (init 1, []) [LCtor false; LCtor false; LCtor false; LDestroy])
  = Some [EConn 0; EChild; EChildGone; EGone].
Proof. vm_compute. reflexivity. Qed.
