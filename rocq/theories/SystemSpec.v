(** A client endpoint with servers of this library at the other end of its connections, in terms of the requests its users
    send, the requests the servers' handlers see, how the handlers complete them and how the users' requests complete.

    The system is the endpoint of FleetModel.v side by side with, for each of its connections, the pair of PairModel.v: that
    client connection, the two byte streams and the server's connection. The two run together: on what passes over the
    connection, and on how the connection completes requests, they agree. (In a pair nothing is known of requests which time
    out or are cancelled elsewhere; these completions, made by the user, are left aside in the comparison.) *)
From Coq Require Import ZArith List Bool.
Import ListNotations.
From Verif Require Import Base WireModel.
From Verif Require HolderModel HolderSpec FleetModel FleetSpec PairModel PairSpec ServerModel.

(** what passes over a connection, and what the connection does *)
Definition traffic (t : list HolderModel.obs) : list HolderModel.obs :=
  filter (fun o => match o with HolderModel.ODone _ (HolderModel.Elsewhere _) => false | _ => true end) t.
(** [far i] is what happens on connection i and at the server's end of it; requests have types [msg] and bodies [body], the
    server translates return codes by [m] *)
Definition system (rc : rctype) (m : option ServerModel.rcmap) (msg : HolderModel.rid -> Z) (body : HolderModel.rid -> list Z)
    (t : list FleetModel.obs) (far : nat -> list PairModel.obs) : Prop :=
  PairSpec.proper_requests msg body /\ PairSpec.proper_map m /\
  forall i, exists dial csc ssc es p, PairModel.run rc msg body dial (PairModel.p_init dial m csc ssc) es = (far i, p) /\
    PairSpec.in_sync rc dial es /\ PairSpec.proper_answers es /\ traffic (PairSpec.client (far i)) = traffic (FleetSpec.at_conn i t).
(** on no connection 2^31 - 2^10 frames are sent while one waits for its answer *)
Definition in_time (t : list FleetModel.obs) : Prop := forall i, HolderSpec.timely (FleetSpec.at_conn i t).
(** the k-th request that the server read on connection i is the user's request r *)
Definition serves (far : nat -> list PairModel.obs) (i k : nat) (r : HolderModel.rid) : Prop :=
  In k (map fst (PairSpec.reads (far i))) /\ exists id, nth_error (PairSpec.sends (far i)) k = Some (id, r).
