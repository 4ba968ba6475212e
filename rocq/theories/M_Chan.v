(** Small-step model of the goroutines of calculateFitnesses
    (algorithm/simple.go:54-88, algorithm/modifiedgenetic.go:99-140).

    Go semantics of buffered channels (Go spec, "Channel types", "Send statements",
    "Close", "For statements with range clause").  ants.Submit (third-party) is
    assumed to accept every task and to run each accepted task once; its default pool
    has math.MaxInt32 workers. *)
From Coq Require Import List Arith.
From Verif Require Import M_Algo.
Import ListNotations.

(** The main goroutine: in the submitting loop at member i, in the receiving loop
    with [done] messages handled, or behind it. *)
Inductive mphase := Submitting (i : nat) | Receiving (done : nat) | Finished.

(** Tasks not started, tasks whose Calculate has returned, the channel's buffer,
    whether it is closed, and the events so far. *)
Record cst := Cst { phase : mphase; pend : list nat; ready : list nat; queue : list nat; closed : bool; trace : list act }.

(** [n] is the number of members submitted (size, or size-cutoff), [cap] the
    capacity of the channel, len(population). *)
Inductive cstep (n cap : nat) : cst -> cst -> Prop :=
| st_submit i p r q cl t : i < n ->   (* simple.go:57-74; modifiedgenetic.go:102-120 *)
    cstep n cap (Cst (Submitting i) p r q cl t) (Cst (Submitting (S i)) (p ++ [i]) r q cl t)
| st_prepare i p r q cl t : n <= i ->   (* simple.go:76-78; modifiedgenetic.go:122-124 *)
    cstep n cap (Cst (Submitting i) p r q cl t) (Cst (Receiving 0) p r q cl (t ++ [Prep]))
| st_calc ph p1 i p2 r q cl t :   (* a worker runs Calculate; simple.go:63-66 *)
    cstep n cap (Cst ph (p1 ++ i :: p2) r q cl t) (Cst ph (p1 ++ p2) (r ++ [i]) q cl (t ++ [Calc i]))
| st_send ph p r1 i r2 q t : length q < cap ->   (* ch <- ...; simple.go:67-70 *)
    cstep n cap (Cst ph p (r1 ++ i :: r2) q false t) (Cst ph p (r1 ++ r2) (q ++ [i]) false t)
| st_recv d p r i q t : S d <> n ->   (* simple.go:79-83 *)
    cstep n cap (Cst (Receiving d) p r (i :: q) false t) (Cst (Receiving (S d)) p r q false (t ++ [Recv i]))
| st_recv_close d p r i q t : S d = n ->   (* simple.go:84-86 *)
    cstep n cap (Cst (Receiving d) p r (i :: q) false t) (Cst (Receiving (S d)) p r q true (t ++ [Recv i]))
| st_recv_closed d p r i q t : S d <> n ->   (* receiving what is left in a closed channel *)
    cstep n cap (Cst (Receiving d) p r (i :: q) true t) (Cst (Receiving (S d)) p r q true (t ++ [Recv i]))
| st_end d p r t :   (* range ends: closed and empty *)
    cstep n cap (Cst (Receiving d) p r [] true t) (Cst Finished p r [] true t).

(** The two ways to panic: sending on a closed channel, closing twice. *)
Definition panics (n : nat) (s : cst) : Prop :=
  closed s = true /\ (ready s <> [] \/ (exists d i q, phase s = Receiving d /\ queue s = i :: q /\ S d = n)).

Definition cstart : cst := Cst (Submitting 0) [] [] [] false [].

Inductive csteps (n cap : nat) : nat -> cst -> Prop :=
| cs_0 : csteps n cap 0 cstart
| cs_S k s s' : csteps n cap k s -> cstep n cap s s' -> csteps n cap (S k) s'.
