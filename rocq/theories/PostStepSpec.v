(** Vocabulary for the statements about locks and post-step callbacks; nothing here is used by the model. *)
From Coq Require Import ZArith List Bool.
From Verif Require Import PostStep.
Import ListNotations.
Local Open Scope Z_scope.

(* the callbacks accepted from outside the post-step phase, the callbacks run, in order; each as key and identity *)
Fixpoint registered (l : list event) : list (option nat * nat) :=
  match l with
  | [] => []
  | EReg false k id true :: r => (k, id) :: registered r
  | _ :: r => registered r
  end.
Fixpoint ran (l : list event) : list (option nat * nat) :=
  match l with
  | [] => []
  | ERun k id _ :: r => (k, id) :: ran r
  | _ :: r => ran r
  end.
(* registered and not yet run: what is left of [registered] after [ran] *)
Definition pending (l : list event) : list (option nat * nat) := skipn (length (ran l)) (registered l).

(* the calls Lock and Unlock written by the user, as opposed to those inside public operations *)
Definition raw (a : act) : Prop := match a with ALock | AUnlock _ => True | _ => False end.
(* the effect of the user's own Lock and Unlock calls in a list of actions *)
Definition net1 (a : act) : Z := match a with ALock => 1 | AUnlock _ => -1 | _ => 0 end.
Fixpoint net (l : list act) : Z := match l with [] => 0 | a :: r => net1 a + net r end.

(* [tidy a]: every callback anywhere in a unlocks as often as it locks *)
Inductive tidy : act -> Prop :=
| tidy_lock : tidy ALock
| tidy_unlock r : tidy (AUnlock r)
| tidy_add k id body : tidy_body body -> tidy (AAddPost k id body)
| tidy_visit cbs : tidy_bodies cbs -> tidy (AVisit cbs)
| tidy_bbquery st dy : tidy_bodies st -> tidy_bodies dy -> tidy (ABBQuery st dy)
| tidy_step z c1 c2 : tidy_bodies c1 -> tidy_bodies c2 -> tidy (AStep z c1 c2)
| tidy_reindex : tidy AReindex
| tidy_mutate : tidy AMutate
with tidy_body : list act -> Prop :=
| tidy_body_intro l : net l = 0 -> tidy_all l -> tidy_body l
with tidy_all : list act -> Prop :=
| tidy_nil : tidy_all []
| tidy_cons a l : tidy a -> tidy_all l -> tidy_all (a :: l)
with tidy_bodies : list (list act) -> Prop :=
| tidy_bodies_nil : tidy_bodies []
| tidy_bodies_cons b l : tidy_body b -> tidy_bodies l -> tidy_bodies (b :: l).

(* [plain a]: no Lock or Unlock of the user's own anywhere in a *)
Inductive plain : act -> Prop :=
| plain_add k id body : plain_all body -> plain (AAddPost k id body)
| plain_visit cbs : plain_bodies cbs -> plain (AVisit cbs)
| plain_bbquery st dy : plain_bodies st -> plain_bodies dy -> plain (ABBQuery st dy)
| plain_step z c1 c2 : plain_bodies c1 -> plain_bodies c2 -> plain (AStep z c1 c2)
| plain_reindex : plain AReindex
| plain_mutate : plain AMutate
with plain_all : list act -> Prop :=
| plain_nil : plain_all []
| plain_cons a l : plain a -> plain_all l -> plain_all (a :: l)
with plain_bodies : list (list act) -> Prop :=
| plain_bodies_nil : plain_bodies []
| plain_bodies_cons b l : plain_all b -> plain_bodies l -> plain_bodies (b :: l).

(* no BBQuery anywhere *)
Inductive no_bbquery : act -> Prop :=
| nb_lock : no_bbquery ALock
| nb_unlock r : no_bbquery (AUnlock r)
| nb_add k id body : nb_all body -> no_bbquery (AAddPost k id body)
| nb_visit cbs : nb_bodies cbs -> no_bbquery (AVisit cbs)
| nb_step z c1 c2 : nb_bodies c1 -> nb_bodies c2 -> no_bbquery (AStep z c1 c2)
| nb_reindex : no_bbquery AReindex
| nb_mutate : no_bbquery AMutate
with nb_all : list act -> Prop :=
| nb_nil : nb_all []
| nb_cons a l : no_bbquery a -> nb_all l -> nb_all (a :: l)
with nb_bodies : list (list act) -> Prop :=
| nb_bodies_nil : nb_bodies []
| nb_bodies_cons b l : nb_all b -> nb_bodies l -> nb_bodies (b :: l).

(* operations that unlock with post-step *)
Definition flushing (a : act) : Prop :=
  match a with AVisit _ | ABBQuery _ _ | AStep false _ _ => True | _ => False end.
(* a callback identity that is never registered from outside the post-step phase *)
Fixpoint avoids (id : nat) (l : list event) : Prop :=
  match l with [] => True | EReg false _ i _ :: r => i <> id /\ avoids id r | _ :: r => avoids id r end.
