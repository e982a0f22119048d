(** Specification vocabulary for the Earth-orientation file and table. *)
From Coq Require Import Reals ZArith List String Ascii.
From Verif Require Import Base ModelEop.
Import ListNotations.
Open Scope R_scope.

Fixpoint chars (s : string) : list ascii :=
  match s with EmptyString => [] | String c s => c :: chars s end.
Definition nl : string := String (ascii_of_nat 10) EmptyString.

(** Comma-separated text of a file: a header line, then one line per row. *)
Fixpoint join (fields : list string) : string :=
  match fields with
  | [] => EmptyString
  | [f] => f
  | f :: rest => (f ++ "," ++ join rest)%string
  end.
Fixpoint csv_rows (rows : list (list string)) : string :=
  match rows with [] => EmptyString | r :: rest => (join r ++ nl ++ csv_rows rest)%string end.
Definition csv (header : string) (rows : list (list string)) : string :=
  (header ++ nl ++ csv_rows rows)%string.

(** A row of at least eleven fields, free of commas and newlines, whose last
    field is not empty. *)
Definition good_row (r : list string) : Prop :=
  (11 <= List.length r)%nat /\
  Forall (fun f => ~ In "," %char (chars f) /\ ~ In (ascii_of_nat 10) (chars f)) r /\
  last r EmptyString <> EmptyString.

(** Column [k] of the rows. *)
Definition column (k : nat) (rows : list (list string)) : list string :=
  map (fun r => nth k r EmptyString) rows.

(** [l] holds the numbers the strings stand for. *)
Definition numbers (stod : string -> option R) (s : list string) (l : list R) : Prop :=
  map stod s = map Some l.

(** All columns have [n] entries. *)
Definition rectangular (n : nat) (t : EopTable) : Prop :=
  List.length (e_mjd t) = n /\ List.length (e_xPole t) = n /\ List.length (e_yPole t) = n /\
  List.length (e_ut1 t) = n /\ List.length (e_lod t) = n /\ List.length (e_tai t) = n.

(** Row [i] is the first one for day [d]. *)
Definition first_row (t : EopTable) (d : R) (i : nat) : Prop :=
  (i < List.length (e_mjd t))%nat /\ nth i (e_mjd t) 0 = d /\
  forall k, (k < i)%nat -> nth k (e_mjd t) 0 <> d.

(** Straight line from [a] (at f = 0) to [b] (at f = 1). *)
Definition lerp (f a b : R) : R := (1 - f) * a + f * b.
(** One arcsecond in radians. *)
Definition arcsec : R := PI / (180 * 3600).

(** State after a list of calls of getEops. *)
Definition runEops (stod : string -> option R) (calls : list (fileSystem * string)) (st : RotState) : RotState :=
  fold_left (fun s c => snd (getEops stod (fst c) (snd c) s)) calls st.
