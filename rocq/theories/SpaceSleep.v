(** The loop of ProcessComponents that puts groups to sleep. *)
From Coq Require Import ZArith List Bool Arith Lia Permutation.
From Verif Require Import Num Space SpaceSpec SpaceInv SpaceMove SpaceWake SpaceActivate SpaceOps SpaceFlood.
Import ListNotations.
Local Open Scope nat_scope.

Section Sleep.
Context {N : Num}.

Lemma connected_core s s' u v : core_eq s s' -> connected s u v -> connected s' u v.
Proof.
  intros C. induction 1 as [|v w H IH L D]; [constructor|econstructor; eauto].
  - rewrite (ce_type _ _ _ C); auto.
  - eapply linked_core; eauto.
  - rewrite (ce_type _ _ _ C); auto.
Qed.
Lemma connected_left s u v : connected s u v -> ty s u = Dynamic.
Proof. induction 1; auto. Qed.
Lemma connected_trans s u v w : connected s u v -> connected s v w -> connected s u w.
Proof. intros A. induction 1; eauto using con_step. Qed.
Lemma connected_sym P Q s u v : pinv P Q s -> connected s u v -> connected s v u.
Proof.
  intros I. induction 1 as [|v w H IH L D]; [constructor; auto|].
  eapply connected_trans; [|exact IH]. eapply con_step; [constructor; auto| |eapply connected_dyn; eauto].
  eapply linked_sym; eauto.
Qed.
Lemma remove1_app x l m : ~ In x l -> remove1 x (l ++ m) = l ++ remove1 x m.
Proof.
  induction l as [|y l IH]; simpl; intros H; auto. destruct (Nat.eqb_spec x y); [exfalso; subst; auto|]. rewrite IH; auto.
Qed.
Lemma remove1_fold_app l : forall m k, (forall x, In x l -> ~ In x m) -> fold_left (fun a x => remove1 x a) l (m ++ k) = m ++ fold_left (fun a x => remove1 x a) l k.
Proof.
  induction l as [|x l IH]; simpl; intros m k H; auto. rewrite remove1_app by (apply H; auto). apply IH. intros; apply H; auto.
Qed.
Lemma remove1_length x l : length (remove1 x l) <= length l.
Proof. induction l as [|y l IH]; simpl; auto. destruct (x =? y); simpl; lia. Qed.
Lemma remove1_fold_length l : forall k, length (fold_left (fun a x => remove1 x a) l k) <= length k.
Proof. induction l as [|x l IH]; simpl; intros k; auto. etransitivity; [apply IH|apply remove1_length]. Qed.

Section Sweep.
Variable thr : num.
Hypothesis thr_pos : nltb n0 thr = true.
Variable P0 : nat -> bool.
Variable s0 : space.

(* [P]: asleep; [F]: in a group found to be awake *)
Record sw (P : nat -> bool) (F : nat -> Prop) (pre suf : list nat) (s : space) : Prop := {
  q_p : pinv P [] s;
  q_cl : forall u v, linked s u v -> P u = true -> ty s v = Static \/ (P v = true /\ roots s u = roots s v);
  q_g : NoDup (s_comps s);
  q_chain : forall r, In r (s_comps s) -> exists l, chain (nexts s) r l /\ NoDup l /\ forall b, In b l <-> P b = true /\ roots s b = Some r;
  q_root : forall b, P b = true -> exists r, roots s b = Some r /\ In r (s_comps s);
  q_fdyn : forall u, F u -> ty s u = Dynamic /\ b_in (s_body s u) = true /\ P u = false;
  q_fcl : forall u v, F u -> linked s u v -> ty s v = Dynamic -> F v;
  q_fact : forall u, F u -> exists y, connected s u y /\ nltb (b_idle (s_body s y)) thr = true;
  q_un : forall u r, P u = false -> roots s u = Some r -> F u /\ F r;
  q_nx : forall u, P u = false -> ~ F u -> nexts s u = None;
  q_split : s_dyn s = pre ++ suf;
  q_pre : forall b, In b pre -> roots s b = None /\ nexts s b = None /\ (ty s b = Dynamic -> F b);
  q_suf : forall b, In b suf -> F b -> roots s b <> None;
  q_kin : kin s;
  q_lock : s_lock s = 0%Z; q_roused : s_roused s = [];
  q_kk : forall u v, linked s u v -> ty s v = Kinematic -> ty s u = Dynamic -> b_idle (s_body s u) = n0;
  q_sh : forall b x, b_in (s_body s b) = true -> ty s b = Dynamic -> In x (b_shapes (s_body s b)) -> sh_in (s_shape s x) = true;
  q_core : core_eq s0 s;
  q_idle : forall y, b_idle (s_body s y) = b_idle (s_body s0 y);
  q_old : forall b, P0 b = true -> P b = true /\ roots s b = roots s0 b;
  q_new : forall b, P b = true -> P0 b = false -> 
    (forall y, connected s b y <-> P y = true /\ roots s y = roots s b) /\ (forall y, connected s b y -> nltb (b_idle (s_body s y)) thr = false) }.

Lemma clear_ok P F pre b suf s : sw P F pre (b :: suf) s -> (ty s b = Dynamic -> F b) ->
  sw P F (pre ++ [b]) suf (set_body s b (w_sleep (s_body s b) None None)).
Proof.
  intros W HF. set (s' := set_body s b _). pose proof (q_p _ _ _ _ _ W) as I.
  assert (SO : soft s s') by apply soft_sleep.
  assert (RT : forall y, roots s' y = if Nat.eqb b y then None else roots s y).
  { intros y. unfold roots, s'; simpl. unfold upd. destruct (b =? y); reflexivity. }
  assert (NX : forall y, nexts s' y = if Nat.eqb b y then None else nexts s y).
  { intros y. unfold nexts, s'; simpl. unfold upd. destruct (b =? y); reflexivity. }
  assert (BD : In b (s_dyn s)) by (rewrite (q_split _ _ _ _ _ W); apply in_app_iff; simpl; auto).
  apply (ib_dyn _ _ _ I) in BD. destruct BD as [BI [BT BP]].
  assert (ND : NoDup (pre ++ b :: suf)) by (rewrite <- (q_split _ _ _ _ _ W); apply (ib_dynn _ _ _ I)).
  pose proof (so_core _ _ SO) as C. pose proof (so_lists _ _ SO) as L.
  assert (NP : ~ In b pre) by (apply NoDup_remove_2 in ND; rewrite in_app_iff in ND; tauto).
  assert (NS : ~ In b suf) by (apply NoDup_remove_2 in ND; rewrite in_app_iff in ND; tauto).
  assert (PNE : forall y, P y = true -> b <> y) by (intros; congruence).
  destruct W. split.
  - eapply pinv_core; eauto.
  - intros u v H P1. rewrite (soft_ty _ _ _ SO), !RT. apply (linked_core s' s) in H; [|apply core_sym; auto].
    destruct (q_cl0 u v H P1) as [|[P2 E]]; auto. right. split; auto.
    destruct (Nat.eqb_spec b u), (Nat.eqb_spec b v); subst; congruence.
  - rewrite (so_comps _ _ SO); auto.
  - intros r H. rewrite (so_comps _ _ SO) in H. destruct (q_chain0 r H) as [l [A [B D]]]. exists l. split; [|split; auto].
    + eapply chain_ext; eauto. intros y Y. rewrite NX. apply D in Y. destruct (Nat.eqb_spec b y); auto. subst; destruct Y; congruence.
    + intros y. rewrite D, RT. destruct (Nat.eqb_spec b y); [subst|tauto]. split; intros [? ?]; congruence.
  - intros y Y. rewrite RT, (so_comps _ _ SO). destruct (Nat.eqb_spec b y); [subst; congruence|auto].
  - intros u H. rewrite (soft_ty _ _ _ SO), <- (ce_in _ _ C). auto.
  - intros u v H K. rewrite (soft_ty _ _ _ SO). apply (linked_core s' s) in K; [|apply core_sym; auto]. eauto.
  - intros u H. destruct (q_fact0 u H) as [y [A B]]. exists y. rewrite (so_idle _ _ SO). split; auto. eapply connected_core; eauto.
  - intros u r H. rewrite RT. destruct (b =? u); [discriminate|]. eauto.
  - intros u H K. rewrite NX. destruct (b =? u); auto.
  - rewrite <- (le_dyn _ _ L), q_split0, <- app_assoc. reflexivity.
  - intros y Y. rewrite RT, NX, (soft_ty _ _ _ SO). apply in_app_iff in Y. destruct (Nat.eqb_spec b y); [subst; auto|].
    destruct Y as [Y|[Y|[]]]; [auto|congruence].
  - intros y Y H. rewrite RT. destruct (Nat.eqb_spec b y); [subst; contradiction|]. apply q_suf0; simpl; auto.
  - intros y. rewrite (soft_ty _ _ _ SO), (so_idle _ _ SO). apply q_kin0.
  - rewrite (so_lock _ _ SO); auto.
  - rewrite (so_roused _ _ SO); auto.
  - intros u v H. rewrite !(soft_ty _ _ _ SO), (so_idle _ _ SO). apply (linked_core s' s) in H; [|apply core_sym; auto]. eauto.
  - intros y x. rewrite <- (ce_in _ _ C), (soft_ty _ _ _ SO), <- (ce_sh _ _ C), <- (ce_shape _ _ C). apply q_sh0.
  - eapply core_trans; eauto.
  - intros y. rewrite (so_idle _ _ SO). auto.
  - intros y Y. rewrite RT. destruct (q_old0 y Y) as [A B]. split; auto. destruct (Nat.eqb_spec b y); [subst; congruence|auto].
  - intros y A B. destruct (q_new0 y A B) as [C1 C2]. split.
    + intros z. rewrite !RT. destruct (Nat.eqb_spec b y); [subst; congruence|].
      split; intros H.
      * apply (connected_core s' s) in H; [|apply core_sym; auto]. apply C1 in H. destruct (Nat.eqb_spec b z); [subst; destruct H; congruence|auto].
      * eapply connected_core; [exact C|]. apply C1. destruct (Nat.eqb_spec b z); [subst; destruct H; congruence|auto].
    + intros z H. rewrite (so_idle _ _ SO). apply C2. eapply connected_core; [apply core_sym; exact C|auto].
Qed.

(* after the flood, the group being awake *)
Lemma flood_awake P F pre b suf s s1 l :
  sw P F pre (b :: suf) s -> ty s b = Dynamic -> ~ F b ->
  soft s s1 -> (forall y, In y l <-> connected s b y) ->
  (forall y, roots s1 y = Some b <-> connected s b y) -> (forall y, ~ connected s b y -> roots s1 y = roots s y /\ nexts s1 y = nexts s y) ->
  (forall v, connected s b v -> P v = false /\ ~ F v /\ b_in (s_body s v) = true) ->
  component_active s1 thr l = true -> sw P (fun y => F y \/ connected s b y) pre (b :: suf) s1.
Proof.
  intros W DB NF SO LL MK UN CP AC. pose proof (so_core _ _ SO) as C. pose proof (so_lists _ _ SO) as L. pose proof (q_p _ _ _ _ _ W) as I.
  assert (NC : forall y, P y = true -> ~ connected s b y) by (intros y H K; apply CP in K; destruct K; congruence).
  assert (FC : forall y, F y -> ~ connected s b y) by (intros y H K; apply CP in K; tauto).
  assert (DEC : forall y, connected s b y \/ ~ connected s b y).
  { intros y. destruct (opt_dec (roots s1 y) (Some b)) as [E|E]; [left; apply MK; auto|right; rewrite <- MK; auto]. }
  assert (BB : connected s b b) by (constructor; auto).
  destruct W. split.
  - eapply pinv_core; eauto.
  - intros u v H P1. rewrite (soft_ty _ _ _ SO). apply (linked_core s1 s) in H; [|apply core_sym; auto].
    destruct (q_cl0 u v H P1) as [|[P2 E]]; auto. right. split; auto.
    rewrite (proj1 (UN u (NC u P1))), (proj1 (UN v (NC v P2))). auto.
  - rewrite (so_comps _ _ SO); auto.
  - intros r H. rewrite (so_comps _ _ SO) in H. destruct (q_chain0 r H) as [l0 [A [B D]]]. exists l0. split; [|split; auto].
    + eapply chain_ext; eauto. intros y Y. apply D in Y. symmetry. apply UN, NC. tauto.
    + intros y. rewrite D. split; intros [P1 E]; split; auto; [rewrite (proj1 (UN y (NC y P1)))|rewrite <- (proj1 (UN y (NC y P1)))]; auto.
  - intros y Y. rewrite (so_comps _ _ SO), (proj1 (UN y (NC y Y))). auto.
  - intros u H. rewrite (soft_ty _ _ _ SO), <- (ce_in _ _ C). destruct H as [H|H]; auto. split; [eapply connected_dyn; eauto|].
    destruct (CP u H) as [A [_ B]]. auto.
  - intros u v H K D. rewrite (soft_ty _ _ _ SO) in D. apply (linked_core s1 s) in K; [|apply core_sym; auto].
    destruct H as [H|H]; [left; eauto|right; econstructor; eauto].
  - intros u H. destruct H as [H|H].
    + destruct (q_fact0 u H) as [y [A B]]. exists y. rewrite (so_idle _ _ SO). split; auto. eapply connected_core; eauto.
    + unfold component_active in AC. apply existsb_exists in AC. destruct AC as [y [A B]]. exists y. split; auto.
      eapply connected_core; [exact C|]. apply LL in A. eapply connected_trans; [eapply connected_sym; eauto|auto].
  - intros u r H K. destruct (DEC u) as [D|D].
    + apply MK in D as D'. assert (r = b) by congruence. subst r. auto.
    + rewrite (proj1 (UN u D)) in K. destruct (q_un0 u r H K). auto.
  - intros u H K. destruct (DEC u) as [D|D]; [exfalso; auto|]. rewrite (proj2 (UN u D)). apply q_nx0; auto.
  - rewrite <- (le_dyn _ _ L). auto.
  - intros y Y. rewrite (soft_ty _ _ _ SO). destruct (q_pre0 y Y) as [A [B D]]. destruct (DEC y) as [E|E].
    + exfalso. eapply FC; [apply D; eapply connected_dyn; eauto|auto].
    + rewrite (proj1 (UN y E)), (proj2 (UN y E)). auto.
  - intros y Y H. destruct (DEC y) as [E|E]; [apply MK in E; congruence|]. rewrite (proj1 (UN y E)). destruct H as [H|H]; [|contradiction].
    apply q_suf0; auto.
  - intros y. rewrite (soft_ty _ _ _ SO), (so_idle _ _ SO). apply q_kin0.
  - rewrite (so_lock _ _ SO); auto.
  - rewrite (so_roused _ _ SO); auto.
  - intros u v H. rewrite !(soft_ty _ _ _ SO), (so_idle _ _ SO). apply (linked_core s1 s) in H; [|apply core_sym; auto]. eauto.
  - intros y x. rewrite <- (ce_in _ _ C), (soft_ty _ _ _ SO), <- (ce_sh _ _ C), <- (ce_shape _ _ C). apply q_sh0.
  - eapply core_trans; eauto.
  - intros y. rewrite (so_idle _ _ SO). auto.
  - intros y Y. destruct (q_old0 y Y) as [A B]. rewrite (proj1 (UN y (NC y A))). auto.
  - intros y A B. destruct (q_new0 y A B) as [C1 C2]. split.
    + intros z. split; intros H.
      * apply (connected_core s1 s) in H; [|apply core_sym; auto]. apply C1 in H. destruct H as [H1 H2]. split; auto.
        rewrite (proj1 (UN y (NC y A))), (proj1 (UN z (NC z H1))). auto.
      * destruct H as [H1 H2]. rewrite (proj1 (UN y (NC y A))), (proj1 (UN z (NC z H1))) in H2. eapply connected_core; [exact C|]. apply C1. auto.
    + intros z H. rewrite (so_idle _ _ SO). apply C2. eapply connected_core; [apply core_sym; exact C|auto].
Qed.

Definition union (P : nat -> bool) (l : list nat) : nat -> bool := fun y => P y || mem y l.
Lemma deactivate_all l : forall P s, pinv P [] s -> NoDup l ->
  (forall b, In b l -> P b = false /\ ty s b = Dynamic /\ b_in (s_body s b) = true /\ forall x, In x (b_shapes (s_body s b)) -> sh_in (s_shape s x) = true) ->
  exists s', ofold space_deactivate l s = Some s' /\ pinv (union P l) [] s' /\ frame s s' /\ s_dyn s' = fold_left (fun a x => remove1 x a) l (s_dyn s).
Proof.
  induction l as [|b l IH]; intros P s I ND H.
  - exists s. split; auto. split; [eapply pinv_ext; [|exact I]; intros y; unfold union; simpl; rewrite orb_false_r; auto|]. split; [apply frame_refl|auto].
  - rewrite ofold_cons. destruct (H b ltac:(simpl; auto)) as [H1 [H2 [H3 H4]]].
    destruct (deactivate_move P [] s b I H1 H2 H3 H4) as [s1 [E [I1 [FR D]]]]. rewrite E. inversion ND; subst.
    destruct (IH (plus P b) s1) as [s' [E' [I' [FR' D']]]]; auto.
    { intros y Y. destruct (H y ltac:(simpl; auto)) as [A1 [A2 [A3 A4]]]. unfold ty. rewrite (fr_body _ _ FR), (fr_shape _ _ FR).
      split; auto. apply plus_f. split; auto. intros ->; contradiction. }
    exists s'. split; auto. split; [|split; [eapply frame_trans; eauto|rewrite D', D; reflexivity]].
    eapply pinv_ext; [|exact I']. intros y. unfold union, plus. rewrite mem_cons. destruct (P y), (y =? b), (mem y l); reflexivity.
Qed.
Lemma frame_core s s' : frame s s' -> core_eq s s'.
Proof. intros [F1 F2 F3 F4]. split; intros; rewrite ?F1, ?F2, ?F3, ?F4; reflexivity. Qed.

Lemma flood_asleep P F pre b suf s s1 l :
  sw P F pre (b :: suf) s -> ty s b = Dynamic -> ~ F b ->
  soft s s1 -> chain (nexts s1) b l -> NoDup l -> (forall y, In y l <-> connected s b y) ->
  (forall y, roots s1 y = Some b <-> connected s b y) -> (forall y, ~ connected s b y -> roots s1 y = roots s y /\ nexts s1 y = nexts s y) ->
  (forall v, connected s b v -> P v = false /\ ~ F v /\ b_in (s_body s v) = true) ->
  component_active s1 thr l = false ->
  exists s2 suf', ofold space_deactivate l (set_comps s1 (s_comps s1 ++ [b])) = Some s2 /\ sw (union P l) F pre suf' s2 /\ length suf' <= length suf.
Proof.
  intros W DB NF SO CH ND LL MK UN CP AC. pose proof (so_core _ _ SO) as C. pose proof (so_lists _ _ SO) as L. pose proof (q_p _ _ _ _ _ W) as I.
  assert (NC : forall y, P y = true -> ~ connected s b y) by (intros y H K; apply CP in K; destruct K; congruence).
  assert (FC : forall y, F y -> ~ connected s b y) by (intros y H K; apply CP in K; tauto).
  assert (DEC : forall y, connected s b y \/ ~ connected s b y).
  { intros y. destruct (opt_dec (roots s1 y) (Some b)) as [E|E]; [left; apply MK; auto|right; rewrite <- MK; auto]. }
  assert (BB : connected s b b) by (constructor; auto).
  assert (SLOW : forall y, connected s b y -> nltb (b_idle (s_body s1 y)) thr = false).
  { intros y Y. apply LL in Y. destruct (nltb (b_idle (s_body s1 y)) thr) eqn:E; auto. exfalso.
    unfold component_active in AC. assert (existsb (fun b0 => nltb (b_idle (s_body s1 b0)) thr) l = true) by (apply existsb_exists; eauto). congruence. }
  set (sc := set_comps s1 (s_comps s1 ++ [b])).
  assert (I1 : pinv P [] sc).
  { eapply pinv_core with (s := s1); [split; reflexivity|split; reflexivity|]. eapply pinv_core; eauto. }
  destruct (deactivate_all l P sc I1 ND) as [s2 [E [I2 [FR D]]]].
  { intros y Y. apply LL in Y. destruct (CP y Y) as [A1 [A2 A3]]. assert (TY : ty s y = Dynamic) by (eapply connected_dyn; eauto).
    change (ty sc y) with (ty s1 y). rewrite (soft_ty _ _ _ SO). simpl s_body. simpl s_shape. rewrite <- (ce_in _ _ C), <- (ce_sh _ _ C), <- (ce_shape _ _ C).
    split; auto. split; auto. split; auto. intros x. apply (q_sh _ _ _ _ _ W); auto. }
  assert (PREL : forall y, In y l -> ~ In y pre).
  { intros y Y J. apply LL in Y. destruct (q_pre _ _ _ _ _ W y J) as [_ [_ K]]. apply FC in Y; auto. apply K. eapply connected_dyn; eauto. }
  assert (BL : In b l) by (apply LL; auto).
  assert (D2 : s_dyn s2 = pre ++ fold_left (fun a x => remove1 x a) l (b :: suf)).
  { rewrite D. simpl s_dyn. rewrite <- (le_dyn _ _ L), (q_split _ _ _ _ _ W). apply remove1_fold_app; auto. }
  assert (C2 : core_eq s s2) by (eapply core_trans; [exact C|]; apply (core_trans s1 sc); [split; reflexivity|exact (frame_core _ _ FR)]).
  assert (RT : forall y, roots s2 y = roots s1 y) by (intros; unfold roots; rewrite (fr_body _ _ FR); reflexivity).
  assert (NX : forall y, nexts s2 y = nexts s1 y) by (intros; unfold nexts; rewrite (fr_body _ _ FR); reflexivity).
  assert (ID : forall y, b_idle (s_body s2 y) = b_idle (s_body s y)) by (intros; rewrite (fr_body _ _ FR); simpl; apply (so_idle _ _ SO)).
  assert (CM : s_comps s2 = s_comps s ++ [b]) by (rewrite (fr_comps _ _ FR); simpl; rewrite (so_comps _ _ SO); reflexivity).
  assert (UP : forall y, union P l y = true <-> P y = true \/ connected s b y).
  { intros y. unfold union. rewrite orb_true_iff, mem_spec, LL. tauto. }
  assert (UF : forall y, union P l y = false <-> P y = false /\ ~ connected s b y).
  { intros y. unfold union. rewrite orb_false_iff, mem_false, LL. tauto. }
  assert (R0 : forall y, ~ connected s b y -> roots s2 y = roots s y) by (intros; rewrite RT; apply UN; auto).
  assert (R1 : forall y, connected s b y -> roots s2 y = Some b) by (intros; rewrite RT; apply MK; auto).
  assert (BNC : ~ In b (s_comps s)).
  { intros J. destruct (q_chain _ _ _ _ _ W b J) as [k [A [B K]]]. apply chain_head in A. apply K in A. destruct (CP b BB). destruct A; congruence. }
  exists s2, (fold_left (fun a x => remove1 x a) l (b :: suf)). split; auto. split.
  - assert (TY := fun y => ce_type _ _ y C2). destruct W. split; auto.
    + intros u v H P1. rewrite TY. apply (linked_core s2 s) in H; [|apply core_sym; auto]. apply UP in P1. destruct P1 as [P1|P1].
      * destruct (q_cl0 u v H P1) as [|[P2 E2]]; auto. right. split; [apply UP; auto|]. rewrite !R0 by (apply NC; auto). auto.
      * destruct (ty s v) eqn:TV; auto.
        -- right. assert (CV : connected s b v) by (econstructor; eauto). split; [apply UP; auto|]. rewrite !R1; auto.
        -- exfalso. pose proof (SLOW u P1) as SL. rewrite (so_idle _ _ SO), (q_kk0 u v H TV) in SL; [congruence|]. eapply connected_dyn; eauto.
    + rewrite CM. apply nd_snoc; auto.
    + intros r H. rewrite CM in H. apply in_app_iff in H. destruct H as [H|[<-|[]]].
      * destruct (q_chain0 r H) as [k [A [B K]]]. exists k. split; [|split; auto].
        -- eapply chain_ext; eauto. intros y Y. rewrite NX. apply K in Y. symmetry. apply UN, NC. tauto.
        -- intros y. rewrite K, UP. split.
           ++ intros [P1 E1]. split; auto. rewrite R0; auto.
           ++ intros [[P1|P1] E1]; [rewrite R0 in E1; auto|]. exfalso. rewrite R1 in E1 by auto. inversion E1; subst. auto.
      * exists l. split; [eapply chain_ext; eauto|]. split; auto. intros y. rewrite LL, UP. split; [intros Y; split; auto|].
        intros [[P1|P1] E1]; auto. apply MK. rewrite <- RT. exact E1.
    + intros y Y. rewrite CM. apply UP in Y. destruct Y as [Y|Y].
      * destruct (q_root0 y Y) as [r [A B]]. exists r. rewrite R0 by (apply NC; auto). split; auto. apply in_app_iff; auto.
      * exists b. split; auto. apply in_app_iff. simpl; auto.
    + intros u H. rewrite TY, <- (ce_in _ _ C2). destruct (q_fdyn0 u H) as [A1 [A2 A3]]. split; auto. split; auto. apply UF. auto.
    + intros u v H K. rewrite TY. apply (linked_core s2 s) in K; [|apply core_sym; auto]. eauto.
    + intros u H. destruct (q_fact0 u H) as [y [A B]]. exists y. rewrite ID. split; auto. eapply connected_core; eauto.
    + intros u r H K. apply UF in H. destruct H as [H1 H2]. rewrite R0 in K; eauto.
    + intros u H K. apply UF in H. destruct H as [H1 H2]. rewrite NX, (proj2 (UN u H2)). auto.
    + intros y Y. rewrite TY. destruct (q_pre0 y Y) as [A [B K]].
      assert (NCY : ~ connected s b y) by (intros Z; apply (PREL y); [apply LL; auto|auto]).
      rewrite (R0 y NCY), NX, (proj2 (UN y NCY)). auto.
    + intros y Y H. rewrite R0 by (apply FC; auto). apply q_suf0; auto.
      assert (NDS : NoDup (b :: suf)).
      { pose proof (ib_dynn _ _ _ I) as NDD. rewrite q_split0 in NDD. clear -NDD. induction pre; auto. inversion NDD; auto. }
      apply (proj1 (remove1_all l (b :: suf) NDS)) in Y. tauto.
    + intros y. rewrite TY, ID. apply q_kin0.
    + rewrite (fr_lock _ _ FR). simpl. rewrite (so_lock _ _ SO); auto.
    + rewrite (fr_roused _ _ FR). simpl. rewrite (so_roused _ _ SO); auto.
    + intros u v H. rewrite !TY, ID. apply (linked_core s2 s) in H; [|apply core_sym; auto]. eauto.
    + intros y x. rewrite <- (ce_in _ _ C2), TY, <- (ce_sh _ _ C2), <- (ce_shape _ _ C2). apply q_sh0.
    + eapply core_trans; eauto.
    + intros y. rewrite ID. auto.
    + intros y Y. destruct (q_old0 y Y) as [A B]. split; [apply UP; auto|]. rewrite R0; auto.
    + intros y A B. apply UP in A. destruct A as [A|A].
      * destruct (q_new0 y A B) as [C3 C4]. split.
        -- intros z. rewrite (R0 y (NC y A)). split; intros H.
           ++ apply (connected_core s2 s) in H; [|apply core_sym; auto]. apply C3 in H. destruct H as [H1 H2]. split; [apply UP; auto|]. rewrite R0; auto.
           ++ destruct H as [H1 H2]. eapply connected_core; [exact C2|]. apply C3. apply UP in H1. destruct H1 as [H1|H1]; [rewrite R0 in H2; auto|].
              exfalso. rewrite R1 in H2 by auto. destruct (q_root0 y A) as [r [X1 X2]]. apply BNC. congruence.
        -- intros z H. rewrite ID. apply C4. eapply connected_core; [apply core_sym; exact C2|auto].
      * split.
        -- intros z. rewrite (R1 y A). split; intros H.
           ++ apply (connected_core s2 s) in H; [|apply core_sym; auto]. assert (CZ : connected s b z) by (eapply connected_trans; eauto).
              split; [apply UP; auto|auto].
           ++ destruct H as [H1 H2]. eapply connected_core; [exact C2|]. rewrite RT in H2. apply MK in H2.
              eapply connected_trans; [eapply connected_sym; eauto|auto].
        -- intros z H. rewrite ID, <- (so_idle _ _ SO). apply SLOW. apply (connected_core s2 s) in H; [|apply core_sym; auto].
           eapply connected_trans; eauto.
  - 
    assert (X : forall l k, In b l -> length (fold_left (fun a x => remove1 x a) l (b :: k)) <= length k).
    { clear. induction l as [|x l IH]; intros k H; [destruct H|]. simpl. destruct (Nat.eqb_spec x b) as [->|NE].
      - apply remove1_fold_length.
      - destruct H as [H|H]; [congruence|]. etransitivity; [apply IH; auto|]. apply remove1_length. }
    apply X; auto.
Qed.

Lemma sweep_eq fuel i s b : nth_error (s_dyn s) i = Some b ->
  sweep (S fuel) thr i s =
    match b_root (s_body s b) with
    | Some _ => sweep fuel thr (S i) (set_body s b (w_sleep (s_body s b) None None))
    | None =>
      match flood (S (length (s_all s))) b b s with
      | None => None
      | Some s1 =>
        match walk (S (length (s_all s1))) s1 b with
        | None => None
        | Some l =>
          if component_active s1 thr l then sweep fuel thr (S i) (set_body s1 b (w_sleep (s_body s1 b) None None))
          else match ofold space_deactivate l (set_comps s1 (s_comps s1 ++ [b])) with
               | None => None
               | Some s2 => sweep fuel thr i s2
               end
        end
      end
    end.
Proof. intros H. cbn [sweep]. rewrite H. reflexivity. Qed.

Lemma sweep_ok fuel : forall P F pre suf s, sw P F pre suf s -> length suf <= fuel ->
  exists s' P' F' pre', sweep fuel thr (length pre) s = Some s' /\ sw P' F' pre' [] s'.
Proof.
  induction fuel as [|fuel IH]; intros P F pre suf s W LE.
  - destruct suf; [|simpl in LE; lia]. exists s, P, F, pre. split; auto. simpl. rewrite (q_split _ _ _ _ _ W), app_nil_r.
    rewrite (proj2 (nth_error_None pre (length pre))); auto.
  - destruct suf as [|b suf].
    { exists s, P, F, pre. split; auto. simpl. rewrite (q_split _ _ _ _ _ W), app_nil_r.
      rewrite (proj2 (nth_error_None pre (length pre))); auto. }
    simpl in LE. pose proof (q_p _ _ _ _ _ W) as I.
    assert (NTH : nth_error (s_dyn s) (length pre) = Some b).
    { rewrite (q_split _ _ _ _ _ W), nth_error_app2, Nat.sub_diag by lia. reflexivity. }
    rewrite (sweep_eq _ _ _ _ NTH).
    assert (CLEAR : forall P F s, sw P F pre (b :: suf) s -> (ty s b = Dynamic -> F b) ->
      exists s' P' F' pre', sweep fuel thr (S (length pre)) (set_body s b (w_sleep (s_body s b) None None)) = Some s' /\ sw P' F' pre' [] s').
    { intros P1 F1 s1 W1 H1. pose proof (clear_ok _ _ _ _ _ _ W1 H1) as W2. apply IH in W2; [|lia]. rewrite app_length in W2. simpl in W2.
      replace (length pre + 1) with (S (length pre)) in W2 by lia. exact W2. }
    assert (BD : In b (s_dyn s)) by (rewrite (q_split _ _ _ _ _ W); apply in_app_iff; simpl; auto).
    apply (ib_dyn _ _ _ I) in BD. destruct BD as [BI [BT BP]].
    destruct (b_root (s_body s b)) as [r|] eqn:RB.
    + apply CLEAR with (P := P) (F := F); auto. intros _. apply (q_un _ _ _ _ _ W b r); auto.
    + assert (NF : ~ F b) by (intros H; apply (q_suf _ _ _ _ _ W b); simpl; auto).
      pose proof (q_nx _ _ _ _ _ W b BP NF) as NB.
      destruct (ty s b) eqn:TB; [| |congruence].
      * (* a dynamic body *)
        assert (CP : forall v, connected s b v -> P v = false /\ ~ F v /\ b_in (s_body s v) = true).
        { induction 1 as [|v w H IHC LK D]; [auto|]. destruct IHC as [A1 [A2 A3]].
          assert (LK' : linked s w v) by (eapply linked_sym; eauto). assert (TV : ty s v = Dynamic) by (eapply connected_dyn; eauto).
          split; [|split].
          - destruct (P w) eqn:PW; auto. destruct (q_cl _ _ _ _ _ W _ _ LK' PW) as [|[? _]]; congruence.
          - intros FW. apply A2. eapply (q_fcl _ _ _ _ _ W); eauto.
          - destruct LK as [[x [HX E]]|[c [HX E]]].
            + assert (LV : live s x) by (left; eapply threaded_end; eauto).
              destruct (ia_sa _ _ _ I x LV) as [X1 X2], (ia_sb _ _ _ I x LV) as [Y1 Y2].
              destruct E as [[_ <-]|[_ <-]]; [rewrite <- Y2 in *; destruct (is_h _ _ _ I _ Y1)|rewrite <- X2 in *; destruct (is_h _ _ _ I _ X1)]; congruence.
            + destruct E as [[_ <-]|[_ <-]]; [destruct (ic_hb _ _ _ I _ HX)|destruct (ic_ha _ _ _ I _ HX)]; congruence. }
        destruct (flood_root P [] s b I TB BI NB) as [s1 [l [FE [SO [CH [ND [BL [LL [MK [UN WK]]]]]]]]]].
        { intros v V. destruct (CP v V) as [A1 [A2 A3]]. destruct (roots s v) as [r|] eqn:E; auto. exfalso. apply A2. exact (proj1 (q_un _ _ _ _ _ W v r A1 E)). }
        { intros y E. destruct (P y) eqn:PY.
          - destruct (q_root _ _ _ _ _ W y PY) as [r [E1 E2]]. assert (r = b) by congruence. subst r.
            destruct (q_chain _ _ _ _ _ W b E2) as [k [A [B K]]]. apply chain_head, K in A. destruct A; congruence.
          - apply NF. exact (proj2 (q_un _ _ _ _ _ W y b PY E)). }
        rewrite FE, WK. destruct (component_active s1 thr l) eqn:AC.
        -- apply CLEAR with (P := P) (F := fun y => F y \/ connected s b y).
           ++ eapply flood_awake; eauto.
           ++ intros _. right. constructor; auto.
        -- destruct (flood_asleep P F pre b suf s s1 l) as [s2 [suf' [E2 [W2 L2]]]]; auto. rewrite E2.
           eapply IH; eauto. lia.
      * (* a kinematic body *)
        assert (FE : flood (S (length (s_all s))) b b s = Some s) by (simpl; unfold is_type; rewrite TB; reflexivity).
        rewrite FE. assert (WK : walk (S (length (s_all s))) s b = Some [b]) by (simpl; unfold nexts in NB; rewrite NB; reflexivity).
        rewrite WK. assert (AC : component_active s thr [b] = true).
        { unfold component_active. simpl. rewrite (q_kin _ _ _ _ _ W b TB), thr_pos. reflexivity. }
        rewrite AC. apply CLEAR with (P := P) (F := F); auto. congruence.
Qed.

(* at the end nothing is marked that is not asleep *)
Lemma sw_end P F pre s : sw P F pre [] s -> winv [] s /\ (forall b, parked s b = P b) /\
  (forall b, b_in (s_body s b) = true -> ty s b = Dynamic -> P b = false -> exists y, connected s b y /\ nltb (b_idle (s_body s y)) thr = true).
Proof.
  intros W. assert (PF : forall b, F b -> In b pre).
  { intros b H. destruct (q_fdyn _ _ _ _ _ W b H) as [A [B D]]. rewrite <- (app_nil_r pre), <- (q_split _ _ _ _ _ W).
    apply (ib_dyn _ _ _ (q_p _ _ _ _ _ W)). split; auto. split; congruence. }
  assert (UN : forall b, P b = false -> roots s b = None /\ nexts s b = None).
  { intros b H. assert (RN : roots s b = None).
    { destruct (roots s b) eqn:E; auto. destruct (q_un _ _ _ _ _ W b n H E) as [FB _]. apply PF, (q_pre _ _ _ _ _ W) in FB. destruct FB; congruence. }
    split; auto. destruct (nexts s b) eqn:E; auto. assert (NF : ~ F b).
    { intros FB. apply PF, (q_pre _ _ _ _ _ W) in FB. destruct FB as [_ [? _]]; congruence. }
    rewrite (q_nx _ _ _ _ _ W b H NF) in E. discriminate. }
  assert (PE : forall b, P b = parked s b).
  { intros b. destruct (P b) eqn:E; symmetry.
    - apply parked_spec. left. destruct (q_root _ _ _ _ _ W b E) as [r [A _]]. congruence.
    - apply parked_no. split; [apply UN; auto|]. rewrite (q_roused _ _ _ _ _ W). auto. }
  split; [|split; [intros; rewrite PE; auto|]].
  - destruct W. split; auto.
    + eapply pinv_ext; eauto.
    + intros u v H. rewrite <- !PE. eauto.
    + split; auto.
      * intros r H. destruct (q_chain0 r H) as [l [A [B D]]]. exists l. split; auto. split; auto. intros b. rewrite D. split; [tauto|].
        intros E. split; auto. rewrite PE. apply parked_spec. left. congruence.
      * intros b r H. destruct (q_root0 b) as [r' [A B]]; [rewrite PE; apply parked_spec; left; congruence|congruence].
      * intros b H. destruct (P b) eqn:E; [destruct (q_root0 b E) as [r [A _]]; congruence|apply UN; auto].
      * rewrite q_roused0. constructor.
      * rewrite q_roused0. intros b [].
    + rewrite q_lock0. lia.
  - intros b B T H. assert (BD : In b pre).
    { rewrite <- (app_nil_r pre), <- (q_split _ _ _ _ _ W). apply (ib_dyn _ _ _ (q_p _ _ _ _ _ W)). split; auto. split; congruence. }
    apply (q_fact _ _ _ _ _ W). apply (q_pre _ _ _ _ _ W) in BD. apply BD; auto.
Qed.
End Sweep.
End Sleep.
