(** C68: ignore_all_values reports the first failure of an item, once, over any concurrent sequence. *)
From Coq Require Import List Arith Bool Lia.
From Verif Require Import Conc IgnoreAllModel.
Import ListNotations.
Set Implicit Arguments.

(** ** Specification *)
Definition fails (r : res) := r <> RV.
(** r is the failure of an item that did not come after the end of another failed item *)
Definition a_first_failure (log : list event) (r : res) : Prop :=
  fails r /\ exists i, In (EItem i r) log /\
  forall post pre, log = post ++ EItem i r :: pre -> forall j r', In (ENext j r') pre -> r' = RV.

(** ** Proof *)
Definition writer (p : ipc) : bool := match p with IBuild _ | ISet _ => true | _ => false end.

Record inv (c : cfg) : Prop := {
  v_zero : word (fst c) = 0 -> slot (fst c) = None /\ cnt writer (items (fst c)) = 0
             /\ (forall i p, nth_error (items (fst c)) i = Some p -> match p with INote r | IDone r => r = RV | _ => True end);
  v_one : word (fst c) = 1 -> cnt writer (items (fst c)) = 1 /\ (slot (fst c) = None -> forall i p, nth_error (items (fst c)) i = Some p -> match p with ISet _ => False | _ => True end);
  v_two : word (fst c) = 2 -> slot (fst c) <> None /\ cnt writer (items (fst c)) = 0;
  v_le : word (fst c) <= 2;
  v_slot : forall r, slot (fst c) = Some r -> a_first_failure (snd c) r;
  v_build : forall i r, nth_error (items (fst c)) i = Some (IBuild r) -> a_first_failure (snd c) r;
  v_cas : forall i r, nth_error (items (fst c)) i = Some (ICas r) -> fails r /\ In (EItem i r) (snd c);
  v_item : forall i r, In (EItem i r) (snd c) -> exists p, nth_error (items (fst c)) i = Some p /\ match p with I0 | IRun => False | ICas r' | IBuild r' | ISet r' | INote r' | IDone r' => r' = r end;
  v_item' : forall i p, nth_error (items (fst c)) i = Some p -> match p with I0 | IRun => forall r, ~ In (EItem i r) (snd c) | ICas r' | IBuild r' | ISet r' | INote r' | IDone r' => In (EItem i r') (snd c) end;
  v_next : forall i r, In (ENext i r) (snd c) -> nth_error (items (fst c)) i = Some (IDone r);
  v_visit : sq (fst c) = QVisit -> In (ESeq RV) (snd c) /\ (forall r, ~ In (EComplete r) (snd c)) /\ forallb quiet (items (fst c)) = true;
  v_run : sq (fst c) = QRun \/ sq (fst c) = QTerm -> (forall r, ~ In (ESeq r) (snd c)) /\ (forall r, ~ In (EComplete r) (snd c));
  v_bad : ~ In EBad (snd c)
}.

Lemma quiet_writer l : forallb quiet l = true -> cnt writer l = 0.
Proof. rewrite forallb_forall. intros H. apply cnt_zero. intros x X. specialize (H _ X). destruct x; auto; discriminate. Qed.
Lemma cnt_upd {A} (p : A -> bool) l : forall i x a, nth_error l i = Some a -> cnt p (upd l i x) + (if p a then 1 else 0) = cnt p l + (if p x then 1 else 0).
Proof.
  induction l; intros [|i] x b H; simpl in *; try discriminate.
  - inversion H; subst; lia.
  - specialize (IHl _ x _ H). lia.
Qed.
Lemma aff_cons e log r : (forall i r', e = EItem i r' -> forall r'', ~ In (EItem i r'') log) -> a_first_failure log r -> a_first_failure (e :: log) r.
Proof.
  intros N [F (i & I & H)]. split; auto. exists i. split; [simpl; auto|]. intros post pre E j r' J.
  destruct post as [|x post]; simpl in E; inversion E; subst.
  - exfalso. apply (N i r eq_refl r I).
  - eapply H; eauto.
Qed.

Lemma inv_init n : inv (init n, []).
Proof.
  split; simpl; try tauto; try lia; try discriminate.
  - intros _. split; auto. split.
    + apply cnt_zero. intros x X. apply repeat_spec in X. subst; auto.
    + intros i p H. apply nth_repeat_some in H. subst; auto.
  - intros i r H. apply nth_repeat_some in H. discriminate.
  - intros i r H. apply nth_repeat_some in H. discriminate.
  - intros i p H. apply nth_repeat_some in H. subst; auto.
Qed.

Ltac up Q := match goal with H : nth_error (upd _ ?i _) ?j = Some _ |- _ => rewrite (@nth_upd _ _ _ _ _ _ Q) in H; destruct (Nat.eqb_spec i j) as [<-|?]; [inversion H; subst; clear H|] end.
Ltac upg Q := rewrite (@nth_upd _ _ _ _ _ _ Q); match goal with |- context [?a =? ?b] => destruct (Nat.eqb_spec a b) as [<-|?] end.

Lemma step_inv s log l s' ev : inv (s, log) -> step s l = Some (s', ev) -> inv (s', rev ev ++ log).
Proof.
  intros I H. destruct I as [V0 V1 V2 VL VS VB VC VI VI' VN VV VR VX]. cbn [fst snd] in *.
  unfold step in H. destruct (sq s) eqn:P; try discriminate.
  - specialize (VR (or_introl eq_refl)). destruct VR as [VR1 VR2]. destruct l as [i|i r|i th|r|]; try discriminate.
    + (* begin *)
      destruct (nth_error (items s) i) as [[]|] eqn:Q; try discriminate. inversion H; subst s' ev; clear H.
      pose proof (@cnt_upd _ writer _ i IRun _ Q) as CN. simpl in CN.
      split; cbn [fst snd rev app set w_items word slot sq items]; auto.
      * intros Z. destruct (V0 Z) as (A & B & C). repeat split; auto; [lia|]. intros j p X. up Q; [auto|apply (C _ _ X)].
      * intros Z. destruct (V1 Z) as (A & B). split; [lia|]. intros SN j p X. up Q; [auto|apply (B SN _ _ X)].
      * intros Z. destruct (V2 Z) as (A & B). split; auto; lia.
      * intros r X. apply aff_cons; auto. discriminate.
      * intros j r X. up Q. apply aff_cons; eauto. discriminate.
      * intros j r X. up Q. destruct (VC _ _ X). simpl; auto.
      * intros j r [X|X]; [discriminate|]. upg Q; eauto. destruct (VI _ _ X) as [p [Y Z]]. rewrite Q in Y. inversion Y; subst; contradiction.
      * intros j p X. up Q.
        -- intros r [Y|Y]; [discriminate|]. apply (VI' _ _ Q r Y).
        -- specialize (VI' _ _ X). destruct p; simpl; auto; intros r [Y|Y]; try discriminate; eapply VI'; eauto.
      * intros j r [X|X]; [discriminate|]. upg Q; eauto. apply VN in X. congruence.
      * congruence.
      * intros _. split; intros r [X|X]; try discriminate; [eapply VR1|eapply VR2]; eauto.
      * intros [X|X]; [discriminate|auto].
    + (* item *)
      destruct (nth_error (items s) i) as [[]|] eqn:Q; try discriminate. inversion H; subst s' ev; clear H.
      set (q := if ok r then INote r else ICas r).
      assert (WQ : writer q = false) by (unfold q; destruct r; auto).
      pose proof (@cnt_upd _ writer _ i q _ Q) as CN. rewrite WQ in CN. simpl in CN.
      pose proof (VI' _ _ Q) as NI. simpl in NI.
      assert (AF : forall r0, a_first_failure log r0 -> a_first_failure (EItem i r :: log) r0).
      { intros r0. apply aff_cons. intros k r' E. inversion E; subst. auto. }
      split; cbn [fst snd rev app set w_items word slot sq items]; auto.
      * intros Z. destruct (V0 Z) as (A & B & C). repeat split; auto; [lia|]. intros j p X. up Q; [unfold q; destruct r; simpl; auto|apply (C _ _ X)].
      * intros Z. destruct (V1 Z) as (A & B). split; [lia|]. intros SN j p X. up Q; [unfold q; destruct r; simpl; auto|apply (B SN _ _ X)].
      * intros Z. destruct (V2 Z) as (A & B). split; auto; lia.
      * intros j r0 X. rewrite (@nth_upd _ _ _ _ _ _ Q) in X. destruct (Nat.eqb_spec i j); [unfold q in X; destruct r; discriminate|]. apply AF. eauto.
      * intros j r0 X. rewrite (@nth_upd _ _ _ _ _ _ Q) in X. destruct (Nat.eqb_spec i j) as [<-|N].
        -- unfold q in X. destruct r; simpl in X; inversion X; subst; (split; [discriminate|simpl; auto]).
        -- destruct (VC _ _ X). simpl; auto.
      * intros j r0 [X|X].
        -- inversion X; subst. exists q. split; [eapply nth_upd_same; eauto|]. unfold q; destruct r0; simpl; auto.
        -- upg Q; eauto. destruct (NI _ X).
      * intros j p X. rewrite (@nth_upd _ _ _ _ _ _ Q) in X. destruct (Nat.eqb_spec i j) as [<-|N].
        -- inversion X; subst p. unfold q. destruct r; simpl; auto.
        -- specialize (VI' _ _ X). destruct p; simpl; auto; intros r0 [Y|Y]; try (inversion Y; subst; contradiction); eapply VI'; eauto.
      * intros j r0 [X|X]; [discriminate|]. upg Q; eauto. apply VN in X. congruence.
      * congruence.
      * intros _. split; intros r0 [X|X]; try discriminate; [eapply VR1|eapply VR2]; eauto.
      * intros [X|X]; [discriminate|auto].
    + (* go *)
      destruct (nth_error (items s) i) as [[| |r|r|r|r|r]|] eqn:Q; try discriminate.
      * (* cas *)
        destruct (VC _ _ Q) as [F FI]. destruct (Nat.eqb_spec (word s) 0) as [Z|Z]; inversion H; subst s' ev; clear H.
        -- pose proof (@cnt_upd _ writer _ i (IBuild r) _ Q) as CN. simpl in CN. destruct (V0 Z) as (A & B & C).
           split; cbn [fst snd rev app set w_items w_word word slot sq items]; auto; try lia.
           ++ intros _. split; [lia|]. intros _ j p X. up Q; auto.
              destruct p; auto. assert (0 < cnt writer (items s)) by (apply cnt_pos; exists (ISet r0); split; auto; eapply nth_error_In; eauto). lia.
           ++ intros j r0 X. up Q; eauto. split; auto. exists i. split; auto. intros post pre E k r' K.
              assert (In (ENext k r') log) by (rewrite E; apply in_or_app; simpl; auto). apply VN in H. apply (C _ _ H).
           ++ intros j r0 X. up Q. eauto.
           ++ intros j r0 X. destruct (VI _ _ X) as [p [Y Y']]. upg Q; eauto. rewrite Q in Y. inversion Y; subst. eauto.
           ++ intros j p X. up Q; eauto. apply (VI' _ _ X).
           ++ intros j r0 X. upg Q; eauto. apply VN in X. congruence.
           ++ congruence.
        -- pose proof (@cnt_upd _ writer _ i (INote r) _ Q) as CN. simpl in CN.
           split; cbn [fst snd rev app set w_items w_word word slot sq items]; auto; try lia.
           ++ intros Z1. destruct (V1 Z1) as (A & B). split; [lia|]. intros SN j p X. up Q; [auto|apply (B SN _ _ X)].
           ++ intros Z1. destruct (V2 Z1) as (A & B). split; auto; lia.
           ++ intros j r0 X. up Q; eauto.
           ++ intros j r0 X. up Q. eauto.
           ++ intros j r0 X. destruct (VI _ _ X) as [p [Y Y']]. upg Q; eauto. rewrite Q in Y. inversion Y; subst. eauto.
           ++ intros j p X. up Q; eauto. apply (VI' _ _ X).
           ++ intros j r0 X. upg Q; eauto. apply VN in X. congruence.
           ++ congruence.
      * (* build *)
        assert (Z : word s = 1).
        { assert (0 < cnt writer (items s)) by (apply cnt_pos; exists (IBuild r); split; auto; eapply nth_error_In; eauto).
          destruct (word s) as [|[|[|w]]] eqn:W; auto; [destruct (V0 eq_refl); lia|destruct (V2 eq_refl); lia|lia]. }
        destruct th; inversion H; subst s' ev; clear H.
        -- split; cbn [fst snd rev app w_sq word slot sq items]; auto.
           ++ intros r0 X. apply aff_cons; auto. discriminate.
           ++ intros j r0 X. apply aff_cons; eauto. discriminate.
           ++ intros j r0 X. destruct (VC _ _ X). simpl; auto.
           ++ intros j r0 [X|X]; [discriminate|eauto].
           ++ intros j p X. specialize (VI' _ _ X). destruct p; simpl; auto; intros r0 [Y|Y]; try discriminate; eapply VI'; eauto.
           ++ intros j r0 [X|X]; [discriminate|eauto].
           ++ discriminate.
           ++ intros _. split; intros r0 [X|X]; try discriminate; [eapply VR1|eapply VR2]; eauto.
           ++ intros [X|X]; [discriminate|auto].
        -- pose proof (@cnt_upd _ writer _ i (ISet r) _ Q) as CN. simpl in CN. destruct (V1 Z) as (A & B).
           split; cbn [fst snd rev app set w_items w_slot word slot sq items]; auto; try lia; try congruence.
           ++ intros _. split; [lia|discriminate].
           ++ intros r0 X. inversion X; subst. eauto.
           ++ intros j r0 X. up Q; eauto.
           ++ intros j r0 X. up Q. eauto.
           ++ intros j r0 X. destruct (VI _ _ X) as [p [Y Y']]. upg Q; eauto. rewrite Q in Y. inversion Y; subst. eauto.
           ++ intros j p X. up Q; eauto; [apply (VI' _ _ Q)|apply (VI' _ _ X)].
           ++ intros j r0 X. upg Q; eauto. apply VN in X. congruence.
      * (* set *)
        assert (Z : word s = 1).
        { assert (0 < cnt writer (items s)) by (apply cnt_pos; exists (ISet r); split; auto; eapply nth_error_In; eauto).
          destruct (word s) as [|[|[|w]]] eqn:W; auto; [destruct (V0 eq_refl); lia|destruct (V2 eq_refl); lia|lia]. }
        inversion H; subst s' ev; clear H.
        pose proof (@cnt_upd _ writer _ i (INote r) _ Q) as CN. simpl in CN. destruct (V1 Z) as (A & B).
        split; cbn [fst snd rev app set w_items w_word word slot sq items]; auto; try lia; try congruence.
        -- intros _. split; [|lia]. intros SN. apply (B SN _ _ Q).
        -- intros j r0 X. up Q; eauto.
        -- intros j r0 X. up Q. eauto.
        -- intros j r0 X. destruct (VI _ _ X) as [p [Y Y']]. upg Q; eauto. rewrite Q in Y. inversion Y; subst. eauto.
        -- intros j p X. up Q; eauto; [apply (VI' _ _ Q)|apply (VI' _ _ X)].
        -- intros j r0 X. upg Q; eauto. apply VN in X. congruence.
      * (* note *)
        inversion H; subst s' ev; clear H.
        pose proof (@cnt_upd _ writer _ i (IDone r) _ Q) as CN. simpl in CN.
        split; cbn [fst snd rev app set w_items w_word word slot sq items]; auto; try lia; try congruence.
        -- intros Z. destruct (V0 Z) as (A & B & C). repeat split; auto; [lia|]. intros j p X. up Q; [apply (C _ _ Q)|apply (C _ _ X)].
        -- intros Z. destruct (V1 Z) as (A & B). split; [lia|]. intros SN j p X. up Q; [auto|apply (B SN _ _ X)].
        -- intros Z. destruct (V2 Z) as (A & B). split; auto; lia.
        -- intros r0 X. apply aff_cons; auto. discriminate.
        -- intros j r0 X. up Q. apply aff_cons; eauto. discriminate.
        -- intros j r0 X. up Q. destruct (VC _ _ X). simpl; auto.
        -- intros j r0 [X|X]; [discriminate|]. destruct (VI _ _ X) as [p [Y Y']]. upg Q; eauto. rewrite Q in Y. inversion Y; subst. eauto.
        -- intros j p X. up Q.
           ++ right. apply (VI' _ _ Q).
           ++ specialize (VI' _ _ X). destruct p; simpl; auto; intros r0 [Y|Y]; try discriminate; eapply VI'; eauto.
        -- intros j r0 [X|X]; [inversion X; subst; eapply nth_upd_same; eauto|]. upg Q; eauto. apply VN in X. congruence.
        -- intros _. split; intros r0 [X|X]; try discriminate; [eapply VR1|eapply VR2]; eauto.
        -- intros [X|X]; [discriminate|auto].
    + (* the sequence completes *)
      destruct (forallb quiet (items s)) eqn:E; [|discriminate].
      assert (K : forall log' s', (exists r', log' = ESeq r' :: log /\ s' = w_sq s QVisit /\ r' = RV) \/ (exists r', log' = EComplete r' :: ESeq r' :: log /\ s' = w_sq s QOver) -> inv (s', log')).
      { intros log' s1 D.
        assert (LI : forall i r', In (EItem i r') log' <-> In (EItem i r') log) by (intros i r'; destruct D as [(x & -> & _)|(x & -> & _)]; simpl; intuition discriminate).
        assert (LN : forall i r', In (ENext i r') log' <-> In (ENext i r') log) by (intros i r'; destruct D as [(x & -> & _)|(x & -> & _)]; simpl; intuition discriminate).
        assert (LX : ~ In EBad log') by (destruct D as [(x & -> & _)|(x & -> & _)]; simpl; intuition discriminate).
        assert (LA : forall r', a_first_failure log r' -> a_first_failure log' r').
        { intros r' X. destruct D as [(x & -> & _)|(x & -> & _)]; repeat (apply aff_cons; [discriminate|]); auto. }
        assert (S1 : items s1 = items s /\ word s1 = word s /\ slot s1 = slot s) by (destruct D as [(x & _ & -> & _)|(x & _ & ->)]; auto).
        destruct S1 as (S1 & S2 & S3).
        split; cbn [fst snd]; rewrite ?S1, ?S2, ?S3; auto.
        - intros i r' X. eauto.
        - intros i r' X. destruct (VC _ _ X). split; auto. apply LI; auto.
        - intros i r' X. apply LI in X. eauto.
        - intros i p X. specialize (VI' _ _ X). destruct p; auto; try (intros r' Y; apply LI in Y; eapply VI'; eauto); apply LI; auto.
        - intros i r' X. apply LN in X. eauto.
        - destruct D as [(x & -> & -> & ->)|(x & -> & ->)]; [|discriminate]. intros _. split; [simpl; auto|]. split; auto. intros r' [X|X]; [discriminate|eapply VR2; eauto].
        - destruct D as [(x & -> & -> & ->)|(x & -> & ->)]; simpl; intros [X|X]; discriminate. }
      destruct r; inversion H; subst s' ev; apply K; simpl; eauto.
  - (* visit *)
    destruct l; try discriminate. specialize (VV eq_refl). destruct VV as (VS1 & VC1 & QI). pose proof (quiet_writer _ QI) as QW.
    assert (E : exists r, ev = [EComplete r] /\ s' = w_sq s QOver).
    { inversion H. destruct (Nat.eqb_spec (word s) 0); [eauto|]. destruct (slot s) eqn:SL; [eauto|].
      exfalso. destruct (word s) as [|[|[|w]]] eqn:W; [congruence|destruct (V1 eq_refl); lia|destruct (V2 eq_refl); congruence|lia]. }
    destruct E as (r & -> & ->). clear H. cbn [rev app].
    split; cbn [fst snd rev app w_sq word slot sq items]; auto.
    + intros r0 X. apply aff_cons; auto. discriminate.
    + intros j r0 X. apply aff_cons; eauto. discriminate.
    + intros j r0 X. destruct (VC _ _ X). simpl; auto.
    + intros j r0 [X|X]; [discriminate|eauto].
    + intros j p X. specialize (VI' _ _ X). destruct p; simpl; auto; intros r0 [Y|Y]; try discriminate; eapply VI'; eauto.
    + intros j r0 [X|X]; [discriminate|eauto].
    + discriminate.
    + intros [X|X]; discriminate.
    + intros [X|X]; [discriminate|auto].
Qed.

Definition is_complete e := match e with EComplete _ => true | _ => false end.
Definition is_next i e := match e with ENext j _ => i =? j | _ => false end.

(** ** Specification of the result: what the sequence reports when it fails or is stopped; otherwise success if no item failed, and a first failure if one did. *)
Definition right_outcome (log : list event) (r : res) : Prop :=
  (exists rs, In (ESeq rs) log /\ fails rs /\ r = rs)
  \/ In (ESeq RV) log /\ (forall i r', In (EItem i r') log -> r' = RV) /\ r = RV
  \/ In (ESeq RV) log /\ a_first_failure log r.

Record after (c : cfg) : Prop := {
  f_cnt : cnt is_complete (snd c) = match sq (fst c) with QOver => 1 | _ => 0 end;
  f_out : forall r, In (EComplete r) (snd c) -> right_outcome (snd c) r;
  f_next : forall i, cnt (is_next i) (snd c) = match nth_error (items (fst c)) i with Some (IDone _) => 1 | _ => 0 end;
  f_done : sq (fst c) = QVisit \/ sq (fst c) = QOver -> forallb quiet (items (fst c)) = true
}.

Lemma after_init n : after (init n, []).
Proof.
  split; simpl; auto; try tauto.
  - intros i. destruct (nth_error (repeat I0 n) i) eqn:E; auto. apply nth_repeat_some in E. subst; auto.
  - intros [|]; discriminate.
Qed.

Lemma step_after s log l s' ev : inv (s, log) -> after (s, log) -> step s l = Some (s', ev) -> after (s', rev ev ++ log).
Proof.
  intros I [FC FO FN FD] H. pose proof (@step_inv _ _ _ _ _ I H) as I'. cbn [fst snd] in *.
  unfold step in H. destruct (sq s) eqn:P; try discriminate.
  - assert (NC : forall r, ~ In (EComplete r) log) by (apply (v_run I); simpl; auto).
    destruct l as [i|i r|i th|r|]; try discriminate.
    + destruct (nth_error (items s) i) as [[]|] eqn:Q; try discriminate. inversion H; subst s' ev; clear H.
      split; simpl; auto.
      * rewrite P. auto.
      * intros r [X|X]; [discriminate|destruct (NC _ X)].
      * intros j. rewrite FN. upg Q; auto. rewrite Q; auto.
      * rewrite P; intros [|]; discriminate.
    + destruct (nth_error (items s) i) as [[]|] eqn:Q; try discriminate. inversion H; subst s' ev; clear H.
      split; simpl; auto.
      * rewrite P. auto.
      * intros r0 [X|X]; [discriminate|destruct (NC _ X)].
      * intros j. rewrite FN. upg Q; auto. rewrite Q; destruct r; auto.
      * rewrite P; intros [|]; discriminate.
    + destruct (nth_error (items s) i) as [[| |r|r|r|r|r]|] eqn:Q; try discriminate;
        [destruct (word s =? 0)|destruct th| |]; inversion H; subst s' ev; clear H; (split; simpl; rewrite ?P; auto).
      all: try (intros [|]; discriminate).
      all: try (intros j; rewrite ?FN; upg Q; rewrite ?Q; auto; fail).
      all: try (intros r0 X; destruct (NC r0); tauto).
      all: try (intros r0 [X|X]; [discriminate|destruct (NC _ X)]).
      intros j. rewrite FN, (@nth_upd _ _ _ _ _ _ Q), (Nat.eqb_sym j i). destruct (Nat.eqb_spec i j) as [<-|N]; rewrite ?Q; auto.
    + destruct (forallb quiet (items s)) eqn:E; [|discriminate].
      destruct r; inversion H; subst s' ev; clear H; (split; simpl; auto).
      * intros r [X|X]; [discriminate|destruct (NC _ X)].
      * intros r [X|[X|X]]; try discriminate; [|destruct (NC _ X)]. inversion X; subst. left. exists (RE e). simpl. repeat split; auto. discriminate.
      * intros r [X|[X|X]]; try discriminate; [|destruct (NC _ X)]. inversion X; subst. left. exists RS. simpl. repeat split; auto. discriminate.
  - destruct l; try discriminate. destruct (v_visit I P) as (VS & NC & QI). cbn [fst snd] in *.
    assert (E : exists r, ev = [EComplete r] /\ right_outcome (EComplete r :: log) r).
    { inversion H. destruct (Nat.eqb_spec (word s) 0) as [Z|Z].
      - exists RV. split; auto. right. left. split; [simpl; auto|]. split; auto. intros i r' [X|X]; [discriminate|].
        destruct (v_zero I Z) as (_ & _ & C). destruct (v_item I _ _ X) as [p [Y W]]. specialize (C _ _ Y).
        rewrite forallb_forall in QI. specialize (QI _ (nth_error_In _ _ Y)). destruct p; try discriminate; try contradiction. congruence.
      - destruct (slot s) as [r|] eqn:SL.
        + exists r. split; auto. right. right. split; [simpl; auto|]. apply aff_cons; [discriminate|]. apply (v_slot I). auto.
        + exfalso. pose proof (quiet_writer _ QI). pose proof (v_le I) as VL. pose proof (v_one I) as V1. pose proof (v_two I) as V2. cbn [fst snd] in *. destruct (word s) as [|[|[|w]]] eqn:W; [congruence|destruct (V1 eq_refl); lia|destruct (V2 eq_refl); congruence|lia]. }
    destruct E as (r & -> & O). assert (s' = w_sq s QOver) as -> by (inversion H; auto). clear H. cbn [rev app] in *.
    split; simpl; auto.
    + intros r0 [X|X]; [inversion X; subst; auto|destruct (NC _ X)].
Qed.

Lemma reach n c : reachable n c -> inv c /\ after c.
Proof.
  intros [ls H]. assert (G : forall c0, inv c0 -> after c0 -> runs c0 ls = Some c -> inv c /\ after c).
  { clear H. induction ls as [|l ls IH]; simpl; intros c0 I A H; [inversion H; subst; auto|].
    unfold cstep in H. destruct c0 as [s log]; simpl in H. destruct (step s l) as [[s1 ev]|] eqn:E; [|discriminate].
    eapply IH; [|eapply step_after; eauto|exact H]. eapply step_inv; eauto. }
  eapply G; [apply inv_init|apply after_init|exact H].
Qed.

(** ** Theorems *)
(** The receiver is completed at most once; a result that is not there is never read. *)
Theorem ignoreall_once n c : reachable n c -> cnt is_complete (snd c) <= 1 /\ ~ In EBad (snd c).
Proof.
  intros R. destruct (@reach _ _ R) as [I A]. split; [|apply (v_bad I)]. rewrite (f_cnt A). destruct (sq (fst c)); lia.
Qed.

(** The completion is the right one. *)
Theorem ignoreall_outcome n c r : reachable n c -> In (EComplete r) (snd c) -> right_outcome (snd c) r.
Proof. intros R. destruct (@reach _ _ R) as [I A]. apply (f_out A). Qed.

(** If the sequence completes with a value: success exactly if no item failed. *)
Theorem ignoreall_success_iff n c r : reachable n c -> In (ESeq RV) (snd c) -> In (EComplete r) (snd c) ->
  (r = RV <-> forall i r', In (EItem i r') (snd c) -> r' = RV).
Proof.
  intros R S C. destruct (@reach _ _ R) as [I A]. pose proof (@ignoreall_outcome _ _ _ R C) as O.
  assert (NS : forall rs, In (ESeq rs) (snd c) -> rs = RV).
  { destruct R as [ls R]. clear -R S. assert (G : forall c0, runs c0 ls = Some c -> (forall rs, In (ESeq rs) (snd c0) -> sq (fst c0) <> QRun) -> (forall a b, In (ESeq a) (snd c0) -> In (ESeq b) (snd c0) -> a = b) -> forall a b, In (ESeq a) (snd c) -> In (ESeq b) (snd c) -> a = b).
    { clear R S. induction ls as [|l ls IH]; simpl; intros c0 R N U; [inversion R; subst; auto|].
      unfold cstep in R. destruct c0 as [s log]; simpl in *. destruct (step s l) as [[s1 ev]|] eqn:E; [|discriminate].
      eapply IH; [exact R| |]; simpl; clear R IH; unfold step in E; destruct (sq s) eqn:P; try discriminate; destruct l as [i|i r|i th|r|]; try discriminate.
      all: try (destruct (nth_error (items s) i) as [[| |r0|r0|r0|r0|r0]|]; try discriminate; try destruct (word s =? 0); try destruct th; inversion E; subst; simpl; rewrite ?P;
                try (intros rs [X|X]; [discriminate|exfalso; eapply N; eauto]); try (intros rs X; exfalso; eapply N; eauto; fail);
                try (intros a b [X|X]; [discriminate|]; intros [Y|Y]; [discriminate|eauto]); eauto; fail).
      - destruct (forallb quiet (items s)); [|discriminate]. destruct r; inversion E; subst; simpl; discriminate.
      - inversion E; subst; simpl; discriminate.
      - destruct (forallb quiet (items s)); [|discriminate].
        assert (NL : forall a, ~ In (ESeq a) log) by (intros a X; apply (N a X); auto).
        destruct r; inversion E; subst; simpl; intros a b HA HB; repeat (destruct HA as [HA|HA]; try discriminate); repeat (destruct HB as [HB|HB]; try discriminate); try congruence; try (destruct (NL _ HA)); try (destruct (NL _ HB)).
      - inversion E; subst. intros a b HA HB. apply U.
        + destruct (word s =? 0); simpl in HA; [destruct HA as [HA|HA]; [discriminate|auto]|]. destruct (slot s); simpl in HA; (destruct HA as [HA|HA]; [discriminate|auto]).
        + destruct (word s =? 0); simpl in HB; [destruct HB as [HB|HB]; [discriminate|auto]|]. destruct (slot s); simpl in HB; (destruct HB as [HB|HB]; [discriminate|auto]). }
    intros rs H. eapply G; eauto; simpl; tauto. }
  destruct O as [(rs & X & F & ->)|[(_ & X & ->)|(_ & F & i & X & _)]].
  - destruct (F (NS _ X)).
  - split; auto.
  - split; [intros ->; destruct F; auto|]. intros H. specialize (H _ _ X). contradiction.
Qed.

(** When the receiver has been completed, every item that was started has been completed, once. *)
Theorem ignoreall_items_done n c r i : reachable n c -> In (EComplete r) (snd c) -> In (EBegin i) (snd c) -> cnt (is_next i) (snd c) = 1.
Proof.
  intros R C B. destruct (@reach _ _ R) as [I A]. rewrite (f_next A).
  assert (Q : sq (fst c) = QOver).
  { pose proof (f_cnt A) as F. destruct (sq (fst c)); auto; exfalso; assert (0 < cnt is_complete (snd c)) by (apply cnt_pos; exists (EComplete r); auto); lia. }
  pose proof (f_done A (or_intror Q)) as D.
  assert (S : exists p, nth_error (items (fst c)) i = Some p /\ p <> I0).
  { destruct R as [ls R]. clear -R B.
    assert (G : forall c0, runs c0 ls = Some c -> (forall i, In (EBegin i) (snd c0) -> exists p, nth_error (items (fst c0)) i = Some p /\ p <> I0) -> forall i, In (EBegin i) (snd c) -> exists p, nth_error (items (fst c)) i = Some p /\ p <> I0).
    { clear R B. induction ls as [|l ls IH]; simpl; intros c0 R N; [inversion R; subst; auto|].
      unfold cstep in R. destruct c0 as [s log]; simpl in *. destruct (step s l) as [[s1 ev]|] eqn:E; [|discriminate].
      eapply IH; [exact R|]. simpl; clear R IH. unfold step in E; destruct (sq s) eqn:P; try discriminate; destruct l as [j|j r|j th|r|]; try discriminate.
      - destruct (nth_error (items s) j) as [[]|] eqn:Q; try discriminate. inversion E; subst. simpl. intros k [X|X].
        + inversion X; subst. exists IRun. split; [eapply nth_upd_same; eauto|discriminate].
        + upg Q; auto. exists IRun; split; auto; discriminate.
      - destruct (nth_error (items s) j) as [[]|] eqn:Q; try discriminate. inversion E; subst. simpl. intros k [X|X]; [discriminate|].
        upg Q; auto. eexists; split; [auto|]. destruct r; discriminate.
      - destruct (nth_error (items s) j) as [[| |r0|r0|r0|r0|r0]|] eqn:Q; try discriminate; try destruct (word s =? 0); try destruct th; inversion E; subst; simpl.
        all: try (intros k [X|X]; [discriminate|]); try intros k X; auto; try (upg Q; auto; eexists; split; [auto|]; discriminate).
      - destruct (forallb quiet (items s)); [|discriminate]. destruct r; inversion E; subst; simpl; intros k X; repeat (destruct X as [X|X]; try discriminate); auto.
      - inversion E; subst. simpl. intros k X. apply N. destruct (word s =? 0); simpl in X; [destruct X as [X|X]; [discriminate|auto]|]. destruct (slot s); simpl in X; (destruct X as [X|X]; [discriminate|auto]). }
    eapply G; eauto. simpl; tauto. }
  destruct S as (p & Y & N). rewrite Y. rewrite forallb_forall in D. specialize (D _ (nth_error_In _ _ Y)). destruct p; try discriminate; congruence.
Qed.

(** Once all started items are over the sequence may complete, and then the receiver is completed. *)
Theorem ignoreall_completes n c : reachable n c -> sq (fst c) = QVisit -> exists s' r, step (fst c) LVisit = Some (s', [EComplete r]).
Proof.
  intros R P. destruct (@reach _ _ R) as [I A]. unfold step. rewrite P. pose proof (f_done A (or_introl P)) as D. pose proof (quiet_writer _ D).
  destruct (Nat.eqb_spec (word (fst c)) 0); eauto. destruct (slot (fst c)) eqn:SL; eauto.
  exfalso. pose proof (v_le I) as VL. pose proof (v_one I) as V1. pose proof (v_two I) as V2.
  destruct (word (fst c)) as [|[|[|w]]]; [congruence|destruct (V1 eq_refl); lia|destruct (V2 eq_refl); congruence|lia].
Qed.

(** The full claim would say that a failure whose copy throws is reported as an error; it terminates the program. *)
Theorem ignoreall_throwing_copy_refuted : exists c, reachable 1 c /\ In ETerm (snd c).
Proof.
  eexists. split; [exists [LBegin 0; LItem 0 (RE 5); LGo 0 false; LGo 0 true]; vm_compute; reflexivity|]. simpl; auto 10.
Qed.
(** The full claim would say that the error of an item is never dropped; a sequence that reacts to it by completing as stopped makes the receiver see stopped. *)
Theorem ignoreall_dropped_error_refuted : exists c, reachable 1 c /\ In (EItem 0 (RE 5)) (snd c) /\ In (EComplete RS) (snd c).
Proof.
  eexists. split; [exists [LBegin 0; LItem 0 (RE 5); LGo 0 false; LGo 0 false; LGo 0 false; LGo 0 false; LSeq RS]; vm_compute; reflexivity|]. simpl; auto 10.
Qed.

(** Two items fail at the same time, the second one claims the result first; a third one succeeds. *)
Example ignoreall_example : option_map (fun c => rev (snd c)) (runs (init 3, []) [LBegin 0; LBegin 1; LItem 0 (RE 5); LItem 1 (RE 6); LGo 1 false; LGo 0 false; LGo 0 false; LBegin 2; LGo 1 false; LItem 2 RV; LGo 1 false; LGo 2 false; LGo 1 false; LSeq RV; LVisit])
  = Some [EBegin 0; EBegin 1; EItem 0 (RE 5); EItem 1 (RE 6); ENext 0 (RE 5); EBegin 2; EItem 2 RV; ENext 2 RV; ENext 1 (RE 6); ESeq RV; EComplete (RE 6)].
Proof. vm_compute. reflexivity. Qed.
