(** Model of the rest of package utils: RunAlgorithm (utils/fitness.go), GenerateAlgorithmOutput
    (utils/output.go), GenerateTrace (utils/trace.go), GenerateProfile (utils/profile.go) and
    CompareAlgorithms (utils/compare.go), with the parts of bufio, fmt and encoding/json they
    use.  They work on any algorithm.Algorithm. *)
From Coq Require Import ZArith List Bool String Ascii DecimalString.
From Flocq Require Import IEEE754.BinarySingleNaN.
From Verif Require Import GoNum M_Norm.
Import ListNotations.
Open Scope Z_scope.

Definition bytes := list ascii.
Definition text (s : string) : bytes := list_ascii_of_string s.
Definition blen (b : bytes) : Z := Z.of_nat (List.length b).
Definition newline : bytes := [ascii_of_nat 10].

(** The interface algorithm.Algorithm (algorithm/algorithm.go:10-19).  Step is a relation: it
    draws random numbers, starts goroutines and sorts.  [None] is a panic. *)
Record algo := Algo {
  al_state : Type;
  al_step : al_state -> option al_state -> Prop;
  al_best : al_state -> list npoint;
  al_fit : al_state -> f64;   (** Stats().BestFitness *)
  al_gen : al_state -> Z }.   (** Stats().Generation; the int is taken as unbounded *)

(** [n] calls of Step in a row (utils/fitness.go:12-14, output.go:21-23, trace.go:15-17 and
    20-22, profile.go:21-23). *)
Inductive step_n (al : algo) : nat -> al_state al -> option (al_state al) -> Prop :=
| sn_0 a : step_n al 0 a (Some a)
| sn_S n a a' o : al_step al a (Some a') -> step_n al n a' o -> step_n al (S n) a o
| sn_panic n a : al_step al a None -> step_n al (S n) a None.

(** bufio.Writer over a file: what is in the file, what is in the buffer, and the error that
    makes all later writes do nothing.  [w_open] is false for the nil file that os.Create
    returns with an error; writing to it fails.  Writes to an open file succeed. *)
Record bwriter := BW { w_open : bool; w_file : bytes; w_buf : bytes; w_err : bool }.
(** bufio.NewWriter(dataFile) after os.Create (utils/output.go:16-17, trace.go:13-14); the
    buffer has bufio's default size. *)
Definition buf_size : Z := 4096.
Definition new_writer (created : bool) : bwriter := BW created [] [] false.
(** The write to the file below. *)
Definition raw_write (p : bytes) (w : bwriter) : bwriter :=
  if w_open w then BW true (w_file w ++ p) (w_buf w) (w_err w) else BW false (w_file w) (w_buf w) true.
(** bufio's Flush. *)
Definition w_flush (w : bwriter) : bwriter :=
  if w_err w then w else
  match w_buf w with
  | [] => w
  | b => let w' := raw_write b w in if w_err w' then w' else BW (w_open w') (w_file w') [] false
  end.
Definition available (w : bwriter) : Z := buf_size - blen (w_buf w).
Definition to_buffer (p : bytes) (w : bwriter) : bwriter := BW (w_open w) (w_file w) (w_buf w ++ p) (w_err w).
(** bufio's Write and WriteString: data that do not fit are written directly if the buffer is
    empty; otherwise the buffer is filled and flushed first.  The loop of the library runs at
    most twice. *)
Definition w_write (p : bytes) (w : bwriter) : bwriter :=
  if w_err w then w else
  if available w <? blen p then
    match w_buf w with
    | [] => raw_write p w
    | _ =>
        let n := Z.to_nat (available w) in
        let w1 := w_flush (to_buffer (firstn n p) w) in
        let p1 := skipn n p in
        if w_err w1 then w1 else
        if available w1 <? blen p1 then raw_write p1 w1 else to_buffer p1 w1
    end
  else to_buffer p w.

Section Text.
(** fmt's %v of a float64, and encoding/json's text of a finite float64. *)
Context (show jnum : f64 -> bytes).

(** fmt's %v of an int. *)
Definition show_int (z : Z) : bytes := text (NilZero.string_of_int (Z.to_int z)).
(** The line "%v, %v\n" of utils/fitness.go:16 and output.go:36. *)
Definition stats_line (gen : Z) (fit : f64) : bytes := show_int gen ++ text ", " ++ show fit ++ newline.

(** json.Marshal of a NormPointGroup (utils/output.go:28): NormPoint has the exported fields X
    and Y and no tags (normgeom/normpoint.go:10-13).  [None] is an error; encoding/json reports
    one for infinities and NaN.  Best is never a nil slice. *)
Definition json_point (p : npoint) : bytes := text "{""X"":" ++ jnum (nx p) ++ text ",""Y"":" ++ jnum (ny p) ++ text "}".
Fixpoint json_list (ps : list npoint) : bytes :=
  match ps with
  | [] => []
  | [p] => json_point p
  | p :: rest => json_point p ++ text "," ++ json_list rest
  end.
Definition finite_point (p : npoint) : bool := is_finite (nx p) && is_finite (ny p).
Definition marshal (ps : list npoint) : option bytes :=
  if forallb finite_point ps then Some (text "[" ++ json_list ps ++ text "]") else None.

(** ---------- RunAlgorithm (utils/fitness.go:9-19) ---------- *)
(** [run_loop al reps k out a o]: [k] iterations of the loop from the output [out] and the state
    [a]; [o] is the output and the state after them, or [None] if a Step panicked. *)
Inductive run_loop (al : algo) (reps : Z) : nat -> bytes -> al_state al -> option (bytes * al_state al) -> Prop :=
| rl_0 out a : run_loop al reps 0 out a (Some (out, a))
| rl_S k out a a' o : step_n al (Z.to_nat reps) a (Some a') ->
    run_loop al reps k (out ++ stats_line (al_gen al a') (al_fit al a')) a' o -> run_loop al reps (S k) out a o
| rl_panic k out a : step_n al (Z.to_nat reps) a None -> run_loop al reps (S k) out a None.

(** ---------- GenerateAlgorithmOutput (utils/output.go:15-44) ---------- *)
(** What the function has done: the stats file and its writer, the output file, and whether
    log.Fatal has ended the program.  What it prints on the console is left out. *)
Record disk := Disk { d_stats : bwriter; d_out : option bytes }.
Inductive outcome (S : Type) := Running (d : disk) (a : S) | Fatal (d : disk) | Panicked.
Arguments Running {S}.
Arguments Fatal {S}.
Arguments Panicked {S}.
(** One iteration after the Steps (output.go:24-40); [ok] says whether ioutil.WriteFile
    succeeds; what a failing one leaves in the output file is not modelled (the theorems do not
    speak of it).  The error tested after Flush (38-40) is that of WriteFile, which is nil by then. *)
Definition write_out (al : algo) (ok : bool) (d : disk) (a : al_state al) : outcome (al_state al) :=
  match marshal (al_best al a) with
  | None => Fatal d
  | Some js =>
      if ok then Running (Disk (w_flush (w_write (stats_line (al_gen al a) (al_fit al a)) (d_stats d))) (Some js)) a
      else Fatal d
  end.
(** [k] iterations of the loop, [oks] the results of WriteFile, one for each iteration. *)
Inductive output_loop (al : algo) (reps : Z) : list bool -> disk -> al_state al -> outcome (al_state al) -> Prop :=
| ol_0 d a : output_loop al reps [] d a (Running d a)
| ol_go ok oks d a a' d1 o : step_n al (Z.to_nat reps) a (Some a') -> write_out al ok d a' = Running d1 a' ->
    output_loop al reps oks d1 a' o -> output_loop al reps (ok :: oks) d a o
| ol_fatal ok oks d a a' d1 : step_n al (Z.to_nat reps) a (Some a') -> write_out al ok d a' = Fatal d1 ->
    output_loop al reps (ok :: oks) d a (Fatal d1)
| ol_panic ok oks d a : step_n al (Z.to_nat reps) a None -> output_loop al reps (ok :: oks) d a Panicked.
(** os.Create of the stats file (16); what was in the output file before stays there. *)
Definition start_disk (created : bool) (old : option bytes) : disk := Disk (new_writer created) old.
End Text.
Arguments Running {S}.
Arguments Fatal {S}.
Arguments Panicked {S}.

(** ---------- GenerateTrace (utils/trace.go:12-25) ---------- *)
(** The Steps before (15-17) and during the trace (20-22).  [chunks] are the pieces the trace is
    written in; trace.Stop (23) returns when all are written.  Line 24 closes the file. *)
Definition warm_up : nat := Z.to_nat 2000.
Definition traced : nat := Z.to_nat 1000.
Definition write_all (chunks : list bytes) (w : bwriter) : bwriter := fold_left (fun w p => w_write p w) chunks w.
Definition generate_trace (al : algo) (created : bool) (chunks : list bytes) (a : al_state al) (file : bytes) (a' : al_state al) : Prop :=
  exists a1, step_n al warm_up a (Some a1) /\ step_n al traced a1 (Some a') /\ file = w_file (write_all chunks (new_writer created)).

(** ---------- GenerateProfile (utils/profile.go:12-27) ---------- *)
(** [clock k] is time.Since(t).Seconds() at check [k]; [profile_loop al secs clock k a k' a']:
    from check [k] on the loop (20-24) ends at check [k'].  If the file cannot be created the
    program ends before (14-16); the CPU profile itself is left out. *)
Inductive profile_loop (al : algo) (secs : Z) (clock : nat -> f64) : nat -> al_state al -> nat -> al_state al -> Prop :=
| pl_done k a : flt (clock k) (f64_of_Z secs) = false -> profile_loop al secs clock k a k a
| pl_go k a a1 k' a' : flt (clock k) (f64_of_Z secs) = true -> step_n al 5 a (Some a1) ->
    profile_loop al secs clock (S k) a1 k' a' -> profile_loop al secs clock k a k' a'.

(** ---------- CompareAlgorithms (utils/compare.go:12-45) ---------- *)
(** What a caller can see of the function: calls of the two factories, Steps, and what is
    printed. *)
Inductive event := MakeA | MakeB | StepA | StepB | Print (b : bytes).
(** A loop [for cond { body }] of at most [fuel] iterations; [None] if it is still running. *)
Fixpoint go_for (cond : bool) (body : list event) (fuel : nat) : option (list event) :=
  if cond then match fuel with O => None | S n => option_map (app body) (go_for cond body n) end else Some [].
(** The condition of the loop (17) is the constant false; [body] stands for lines 18-43. *)
Definition compare_algorithms (body : list event) (fuel : nat) : option (list event) := go_for false body fuel.
