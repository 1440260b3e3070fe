(** What users of MultiRequest rely on. *)
From Coq Require Import List Bool Arith.
Import ListNotations.
From Verif Require Import MultiModel.

Definition issued (t : list obs) : list nat := flat_map (fun o => match o with OIssued i => [i] | _ => [] end) t.
Definition performed (t : list obs) : list nat := flat_map (fun o => match o with OPerform i => [i] | _ => [] end) t.
Definition received (t : list obs) : list nat := flat_map (fun o => match o with ORecv i => [i] | _ => [] end) t.
Definition results (t : list obs) : list (list nat) := flat_map (fun o => match o with OResult l => [l] | _ => [] end) t.
Definition eofs (t : list obs) : nat := length (flat_map (fun o => match o with OEOF => [tt] | _ => [] end) t).

(** the steps of the goroutines of the library *)
Definition internal (e : ev) : Prop := match e with Owner | Resp _ | Canc _ => True | _ => False end.
Definition stuck (s : st) : Prop := forall e, internal e -> step s e = ([], Some s).
Fixpoint effective (s : st) (es : list ev) : Prop :=
  match es with
  | [] => True
  | e :: es => internal e /\ exists o s', step s e = (o, Some s') /\ s' <> s /\ effective s' es
  end.
(** Each is between making the channel and its end *)
Definition in_window (s : st) : Prop := match op s with E4 _ | E5 | E6 | E7 => True | _ => False end.
(** no completion loads the channel variable in that window *)
Fixpoint window_free (s : st) (es : list ev) : Prop :=
  match es with
  | [] => True
  | e :: es => (forall i, e = Resp i -> in_window s -> dp s i <> D1) /\ match step s e with (_, Some s') => window_free s' es | _ => True end
  end.
(** no call of Cancel or Expire *)
Definition uncancelled (es : list ev) : Prop := forall k, ~ In (Cancel k) es.
(** the two loads of one entry in performFailAll happen without another step in between *)
Fixpoint atomic_loads (s : st) (es : list ev) : Prop :=
  match es with
  | [] => True
  | e :: es => (forall k i n, kp s k = KCall i n -> e = Canc k) /\ (forall m i n, op s = OFail m (KCall i n) -> e = Owner) /\
               match step s e with (_, Some s') => atomic_loads s' es | _ => True end
  end.
(** every request given out so far is completed *)
Definition all_performed (t : list obs) : Prop := forall i, In i (issued t) -> In i (performed t).
(** the goroutine using the multi-request is not inside Request, Results or Each *)
Definition user_free (s : st) : Prop := op s = O0 \/ op s = OEnd.
