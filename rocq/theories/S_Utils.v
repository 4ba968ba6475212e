(** Spec for the functions of package utils (C75-C77). *)
From Coq Require Import ZArith List Bool String Ascii DecimalString.
From Flocq Require Import IEEE754.BinarySingleNaN.
From Verif Require Import GoNum M_Norm M_Geom M_Image M_Random M_Algo M_Chan M_Fitness S_Run2 M_Default S_Default M_Utils.
Import ListNotations.
Open Scope Z_scope.

(** The states at the end of the iterations of a loop that calls Step [reps] times in each. *)
Inductive visits (al : algo) (reps : Z) : al_state al -> list (al_state al) -> Prop :=
| vi_nil a : visits al reps a []
| vi_cons a b l : step_n al (Z.to_nat reps) a (Some b) -> visits al reps b l -> visits al reps a (b :: l).

(** The last of the states [a], [l]. *)
Definition final {A} (a : A) (l : list A) : A := last l a.

(** ---------- what encoding/json promises ---------- *)
Definition number_char (c : ascii) : bool := existsb (Ascii.eqb c) (list_ascii_of_string "0123456789+-.eE").
(** Finite numbers are written with the characters of numbers, and different numbers differently. *)
Definition number_texts (jnum : f64 -> bytes) : Prop :=
  (forall x, is_finite x = true -> jnum x <> [] /\ forallb number_char (jnum x) = true) /\
  (forall x y, is_finite x = true -> is_finite y = true -> jnum x = jnum y -> x = y).

(** A reader of a JSON array of objects with the two members X and Y: it returns the texts of
    the numbers. *)
Fixpoint expect (w s : bytes) : option bytes :=
  match w, s with
  | [], _ => Some s
  | c :: w', d :: s' => if Ascii.eqb c d then expect w' s' else None
  | _ :: _, [] => None
  end.
Fixpoint number (s : bytes) : bytes * bytes :=
  match s with
  | c :: s' => if number_char c then let (n, r) := number s' in (c :: n, r) else ([], s)
  | [] => ([], [])
  end.
Definition read_point (s : bytes) : option ((bytes * bytes) * bytes) :=
  match expect (text "{""X"":") s with
  | None => None
  | Some s1 => let (x, s2) := number s1 in
      match expect (text ",""Y"":") s2 with
      | None => None
      | Some s3 => let (y, s4) := number s3 in
          match expect (text "}") s4 with
          | None => None
          | Some s5 => match x, y with [], _ => None | _, [] => None | _, _ => Some ((x, y), s5) end
          end
      end
  end.
(** The points of an array after the opening bracket or a comma. *)
Fixpoint read_rest (fuel : nat) (s : bytes) : option (list (bytes * bytes)) :=
  match fuel with
  | O => None
  | S n =>
      match read_point s with
      | None => None
      | Some (p, s1) =>
          match s1 with
          | c :: s2 => if Ascii.eqb c "," then option_map (cons p) (read_rest n s2)
                       else if Ascii.eqb c "]" then match s2 with [] => Some [p] | _ => None end else None
          | [] => None
          end
      end
  end.
Definition read_points (s : bytes) : option (list (bytes * bytes)) :=
  match s with
  | c :: s1 => if Ascii.eqb c "[" then match s1 with
                | d :: [] => if Ascii.eqb d "]" then Some [] else None
                | _ => read_rest (List.length s1) s1
                end else None
  | [] => None
  end.

(** A reader of lines with two columns, an int and the text of a number, separated by a comma and
    a blank. *)
Fixpoint upto (c : ascii) (s : bytes) : option (bytes * bytes) :=
  match s with
  | [] => None
  | d :: s' => if Ascii.eqb d c then Some ([], s') else option_map (fun r => (d :: fst r, snd r)) (upto c s')
  end.
Definition read_entry (s : bytes) : option ((Z * bytes) * bytes) :=
  match upto "," s with
  | Some (n, s1) =>
      match NilZero.int_of_string (string_of_list_ascii n), expect (text " ") s1 with
      | Some i, Some s2 => match upto (ascii_of_nat 10) s2 with Some (f, s3) => Some ((Z.of_int i, f), s3) | None => None end
      | _, _ => None
      end
  | None => None
  end.
Fixpoint read_lines (fuel : nat) (s : bytes) : option (list (Z * bytes)) :=
  match s, fuel with
  | [], _ => Some []
  | _, O => None
  | _, S n => match read_entry s with None => None | Some (e, s1) => option_map (cons e) (read_lines n s1) end
  end.
Definition read_stats (s : bytes) : option (list (Z * bytes)) := read_lines (List.length s) s.
(** fmt writes a number on one line. *)
Definition on_one_line (show : f64 -> bytes) : Prop := forall x, ~ In (ascii_of_nat 10) (show x).

(** ---------- the default algorithm as an Algorithm ---------- *)
(** Step with draws that are numbers, a completed calculateFitnesses and a sort that sorts. *)
Definition default_al (srt : point -> list point -> option (list point)) (num : Z) (fi : fimg) : algo :=
  Algo (core par)
    (fun c o => exists d s sw, number_draws d /\ finished default_size s /\ swaps_within default_size sw /\
       match default_step srt num fi d s sw c with
       | None => o = None
       | Some (c', _) => sort_sorts (c_fits c') /\ o = Some c'
       end)
    (fun c => buf c (best_slice c)) stats_best stats_gen.
