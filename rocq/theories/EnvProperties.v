(** C42: environments. *)
From Coq Require Import List Bool Arith Lia.
From Verif Require Import EnvModel.
Import ListNotations.
Set Implicit Arguments.

Section P.
  Variable fwdq : query -> bool.
  Local Notation ask := (ask fwdq).

  Lemma ask_env_cons e l q :
    ask (EnvE (e :: l)) q = match ask e q with Some v => Some v | None => ask (EnvE l) q end.
  Proof. reflexivity. Qed.

  (** The answer of [env{e1, ..., en}] to a query is the answer of the first
      [ei] that has one, whatever the environments are and however deeply
      nested; there is an answer iff one of them has one. *)
  Theorem C42_leftmost_wins : forall l q v,
    ask (EnvE l) q = Some v <->
    exists l1 e l2, l = l1 ++ e :: l2 /\ ask e q = Some v /\ forall x, In x l1 -> ask x q = None.
  Proof.
    induction l as [|e l IH]; intros q v.
    - split; [discriminate|]. intros (l1 & e & l2 & H & _). destruct l1; discriminate.
    - rewrite ask_env_cons. destruct (ask e q) as [w|] eqn:A.
      + split.
        * intros [= ->]. exists [], e, l. repeat split; auto. intros x [].
        * intros (l1 & e' & l2 & H & B & C). destruct l1 as [|x l1]; simpl in H.
          -- inversion H; subst. congruence.
          -- inversion H; subst. rewrite (C x) in A by (left; reflexivity). discriminate.
      + rewrite IH. split.
        * intros (l1 & e' & l2 & -> & B & C). exists (e :: l1), e', l2. repeat split; auto.
          intros x [<-|Hx]; auto.
        * intros (l1 & e' & l2 & H & B & C). destruct l1 as [|x l1]; simpl in H.
          -- inversion H; subst. congruence.
          -- inversion H; subst. exists l1, e', l2. repeat split; auto. intros y Hy. apply C. right; exact Hy.
  Qed.

  Theorem C42_no_answer : forall l q,
    ask (EnvE l) q = None <-> forall e, In e l -> ask e q = None.
  Proof.
    intros l q. split.
    - intros H e Hin. destruct (ask e q) as [v|] eqn:A; auto.
      induction l as [|x l IH]; [destruct Hin|]. rewrite ask_env_cons in H.
      destruct (ask x q) eqn:B; [discriminate|]. destruct Hin as [->|Hin]; [congruence|]. auto.
    - induction l as [|x l IH]; auto. intros H. rewrite ask_env_cons, (H x) by (left; reflexivity).
      apply IH. intros. apply H. right; assumption.
  Qed.

  (** A forwarding environment shows exactly the forwarding queries. *)
  Theorem C42_fwd_env : forall e q,
    ask (fwd_env e) q = if fwdq q then ask e q else None.
  Proof.
    intros e q. destruct e as [f|q' v|[|x l]|e]; cbn [fwd_env]; try reflexivity;
      simpl; destruct (fwdq q); reflexivity.
  Qed.

  (** A joined environment answers like the first one where it answers, and like
      the second one, for forwarding queries only, elsewhere - also when one of
      the two is the empty environment. *)
  Theorem C42_join : forall e1 e2 q,
    ask (join e1 e2) q =
    match ask e1 q with
    | Some v => Some v
    | None => if fwdq q then ask e2 q else None
    end.
  Proof.
    intros e1 e2 q. unfold join. destruct (is_empty e1) eqn:E1.
    - destruct e1 as [| |[|]|]; try discriminate. simpl. apply C42_fwd_env.
    - destruct (is_empty e2) eqn:E2.
      + destruct e2 as [| |[|]|]; try discriminate.
        destruct (ask e1 q); auto. simpl. destruct (fwdq q); reflexivity.
      + rewrite !ask_env_cons, C42_fwd_env. destruct (ask e1 q); auto.
        destruct (fwdq q); [destruct (ask e2 q); reflexivity|reflexivity].
  Qed.

  (** *** A stack of adaptors *)

  (** What a layer adds, and whether it hides non-forwarding queries of what is
      outside of it. *)
  Definition adds (l : layer) (q : query) : option value :=
    match l with LPass | LFwd => None | LAdd e | LAddFwd e => ask e q end.
  Definition filters (l : layer) : bool :=
    match l with LPass => false | _ => true end.

  Lemma ask_through l outer q :
    ask (through l outer) q =
    match adds l q with
    | Some v => Some v
    | None => if filters l && negb (fwdq q) then None else ask outer q
    end.
  Proof.
    destruct l; cbn [through adds filters andb].
    - reflexivity.
    - rewrite C42_fwd_env. destruct (fwdq q); reflexivity.
    - rewrite C42_join. destruct (ask e q); auto. destruct (fwdq q); reflexivity.
    - rewrite C42_join, C42_fwd_env. destruct (ask e q); auto. destruct (fwdq q); reflexivity.
  Qed.

  Lemma below_app ls1 ls2 e : below (ls1 ++ ls2) e = below ls2 (below ls1 e).
  Proof. revert e. induction ls1; simpl; auto. Qed.

  (** At any depth: the answer comes from the innermost layer that adds an
      answer, or from the outermost receiver if none does; and a query that is
      not forwarding is answered only if no layer between filters. *)
  Theorem C42_stack : forall ls base q v,
    ask (below ls base) q = Some v <->
    (exists outer l inner, ls = outer ++ l :: inner /\ adds l q = Some v /\
       forall x, In x inner -> adds x q = None /\ (fwdq q = true \/ filters x = false))
    \/
    (ask base q = Some v /\
       forall x, In x ls -> adds x q = None /\ (fwdq q = true \/ filters x = false)).
  Proof.
    intros ls. induction ls as [|l ls IH] using rev_ind; intros base q v.
    - simpl. split.
      + intro H. right. split; auto. intros x [].
      + intros [(o & l & i & H & _)|(H & _)]; [destruct o; discriminate|exact H].
    - rewrite below_app. cbn [below]. rewrite ask_through.
      destruct (adds l q) as [w|] eqn:A.
      + split.
        * intros [= ->]. left. exists ls, l, []. split; [reflexivity|split; [exact A|]]. intros x [].
        * intros [(o & l0 & i & H & B & C)|(B & C)].
          -- destruct i as [|x i] using rev_ind.
             ++ change (o ++ [l0]) with (o ++ [l0]) in H. apply app_inj_tail in H.
                destruct H as [_ <-]. congruence.
             ++ clear IHi. rewrite app_comm_cons, app_assoc in H. apply app_inj_tail in H.
                destruct H as [_ <-]. destruct (C l) as [Q _]; [apply in_or_app; right; left; reflexivity|congruence].
          -- destruct (C l) as [Q _]; [apply in_or_app; right; left; reflexivity|congruence].
      + destruct (filters l && negb (fwdq q)) eqn:F.
        * split; [discriminate|]. apply andb_true_iff in F. destruct F as [F1 F2].
          apply negb_true_iff in F2.
          intros [(o & l0 & i & H & B & C)|(B & C)].
          -- destruct i as [|x i] using rev_ind.
             ++ apply app_inj_tail in H. destruct H as [_ <-]. congruence.
             ++ clear IHi. rewrite app_comm_cons, app_assoc in H. apply app_inj_tail in H.
                destruct H as [_ <-].
                destruct (C l) as [_ [Q|Q]]; [apply in_or_app; right; left; reflexivity|congruence|congruence].
          -- destruct (C l) as [_ [Q|Q]]; [apply in_or_app; right; left; reflexivity|congruence|congruence].
        * assert (G : fwdq q = true \/ filters l = false).
          { apply andb_false_iff in F. destruct F as [F|F]; auto. apply negb_false_iff in F. auto. }
          rewrite IH. split.
          -- intros [(o & l0 & i & H & B & C)|(B & C)].
             ++ left. exists o, l0, (i ++ [l]). subst ls. rewrite <- app_assoc. split; [reflexivity|split; [exact B|]].
                intros x H. apply in_app_or in H; destruct H as [H|[<-|[]]]; auto.
             ++ right. split; auto. intros x Hx. apply in_app_or in Hx. destruct Hx as [Hx|[<-|[]]]; auto.
          -- intros [(o & l0 & i & H & B & C)|(B & C)].
             ++ left. destruct i as [|x i] using rev_ind.
                ** apply app_inj_tail in H. destruct H as [_ <-]. congruence.
                ** clear IHi. rewrite app_comm_cons, app_assoc in H. apply app_inj_tail in H.
                   destruct H as [-> <-]. exists o, l0, i. split; [reflexivity|split; [exact B|]]. intros x0 H. apply C; apply in_or_app; auto.
             ++ right. split; auto. intros x Hx. apply C. apply in_or_app; auto.
  Qed.

  (** A child below an adaptor that changes the environment sees, besides what
      that adaptor adds, only forwarding queries. *)
  Theorem C42_only_forwarding : forall l base q v,
    filters l = true -> ask (through l base) q = Some v ->
    adds l q = Some v \/ (fwdq q = true /\ ask base q = Some v).
  Proof.
    intros l base q v F. rewrite ask_through, F. destruct (adds l q); auto.
    destruct (fwdq q); simpl; intros; [auto|discriminate].
  Qed.

  (** Below [unstoppable], with any stack of adaptors in between that add no
      stop token of their own, the child sees the never-stop token. *)
  Theorem C42_unstoppable : forall outer inner base,
    fwdq get_stop_token = true ->
    (forall l, In l inner -> adds l get_stop_token = None) ->
    ask (below (outer ++ unstoppable :: inner) base) get_stop_token = Some never_stop_token.
  Proof.
    intros outer inner base F H. apply C42_stack. left. exists outer, unstoppable, inner.
    split; [reflexivity|split; [reflexivity|]]. intros x Hx. split; auto.
  Qed.

  (** Adaptors with the default receiver environment show their child also the
      non-forwarding queries, contrary to the statement. *)
  Theorem C42_default_env_forwards_all_refuted : forall base q v,
    fwdq q = false -> ask base q = Some v -> ask (below [LPass] base) q = Some v.
  Proof. intros. simpl. assumption. Qed.
End P.

(** Three layers: a user's environment with a non-forwarding query (7) and a
    forwarding one (1); write_env adds an allocator (2). *)
Example C42_example :
  let fwdq q := negb (q =? 7) in
  let base := EnvE [PropE 7 70; PropE 1 10; PropE 2 20] in
  let e := below [LPass; LAdd (PropE 2 21); LFwd; LPass] base in
  ask fwdq e 1 = Some 10 /\ ask fwdq e 2 = Some 21 /\ ask fwdq e 7 = None /\
  ask fwdq (below [LPass; LPass] base) 7 = Some 70.
Proof. repeat split. Qed.

Example C42_unstoppable_example :
  ask (fun _ => true)
    (below ([LAdd (PropE get_stop_token 5)] ++ unstoppable :: [LPass; LFwd; LAdd (PropE 2 21)])
       (EnvE [PropE get_stop_token 9])) get_stop_token = Some never_stop_token.
Proof. reflexivity. Qed.

Print Assumptions C42_leftmost_wins.
Print Assumptions C42_stack.
Print Assumptions C42_unstoppable.
