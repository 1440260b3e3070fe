(** Vocabulary for statements about request traces (newest event first). *)
From Coq Require Import ZArith List Bool Arith.
Import ListNotations.
From Verif Require Import RequestModel.
Open Scope Z_scope.

Fixpoint count (f : ev -> bool) (l : list ev) : nat :=
  match l with [] => 0 | e :: l => (if f e then 1 else 0) + count f l end.

Definition is_delivered (e : ev) := match e with EvDelivered _ _ _ _ => true | _ => false end.
Definition is_reset (e : ev) := match e with EvReset _ _ => true | _ => false end.
Definition is_reset_new (e : ev) := match e with EvReset _ false => true | _ => false end.
Definition is_reset_pending (e : ev) := match e with EvReset _ true => true | _ => false end.
Definition is_reset_by (b : nat) (e : ev) := match e with EvReset b' _ => Nat.eqb b' b | _ => false end.
Definition is_notify (b : nat) (e : ev) := match e with EvNotify b' _ => Nat.eqb b' b | _ => false end.
Definition is_chained (b : nat) (e : ev) := match e with EvChained b' => Nat.eqb b' b | _ => false end.
Definition is_run (e : ev) := match e with EvRun _ => true | _ => false end.
Definition is_pending (e : ev) := match e with EvPending _ => true | _ => false end.
Definition is_nilfly (e : ev) := match e with EvInFly None => true | _ => false end.
(** a claim SetInFly may succeed again after one of these *)
Definition reopens (e : ev) := match e with EvPending _ | EvReset _ true => true | _ => false end.

(** bookmarks chained / notified, newest first *)
Fixpoint chained (l : list ev) : list nat :=
  match l with [] => [] | EvChained b :: l => b :: chained l | _ :: l => chained l end.
Fixpoint notified (l : list ev) : list nat :=
  match l with [] => [] | EvNotify b _ :: l => b :: notified l | _ :: l => notified l end.

(** no SetPending succeeded since the last re-arm to New (or ever) *)
Fixpoint pend_open (l : list ev) : bool :=
  match l with
  | [] => true
  | EvPending _ :: _ => false
  | EvReset _ false :: _ => true
  | _ :: l => pend_open l
  end.
(** a completion is under way: started and not re-armed since *)
Fixpoint armed (l : list ev) : bool :=
  match l with
  | [] => false
  | EvPrepared :: _ => true
  | EvReset _ _ :: _ => false
  | _ :: l => armed l
  end.
(** the latest successful SetInFly since the request last became Pending *)
Fixpoint fly_last (l : list ev) : option (option nat) :=
  match l with
  | [] => None
  | EvInFly x :: _ => Some x
  | EvPending _ :: _ => None
  | EvReset _ true :: _ => None
  | _ :: l => fly_last l
  end.

(** Sums over goroutines. *)
Fixpoint sum (f : thread -> Z) (l : list thread) : Z :=
  match l with [] => 0 | x :: l => f x + sum f l end.
(** how many of the finished calls of a goroutine satisfy [f] *)
Definition results (f : op -> bool -> bool) (th : thread) : Z :=
  fold_right (fun x n => (if f (fst x) (snd x) then 1 else 0) + n) 0 (dn th).
Definition pend_true (o : op) (r : bool) : bool := match o with OSetPending => r | _ => false end.
Definition nilfly_true (o : op) (r : bool) : bool := match o with OSetInFlyNil => r | _ => false end.
(** how many calls of a program chain bookmark [b] *)
Definition op_uses (b : nat) (o : op) : Z :=
  match o with OSetInFly b' | OChainBookmark b' => if Nat.eqb b' b then 1 else 0 | _ => 0 end.
Definition uses (b : nat) (l : list op) : Z := fold_right (fun o n => op_uses b o + n) 0 l.
Definition is_resp (o : op) := match o with ORespondBytes _ _ | ORespondFail _ => true | _ => false end.
