(** Model of the Earth-orientation table of src/util/Rotations.cpp: getEops
    (292-367) and getCurrentEop (820-876).  No proofs here. *)
From Coq Require Import Reals ZArith List String Ascii Bool.
From Verif Require Import Base.
Import ListNotations.
Open Scope R_scope.

(** Rotations.hpp 271-281: the table and its ready flag. *)
Record EopTable := Eops {
  e_mjd : list R; e_xPole : list R; e_yPole : list R;
  e_ut1 : list R; e_lod : list R; e_tai : list R }.
Record RotState := RS { eopsSet : bool; eops : EopTable }.

(** Rotations.hpp 271-281: the state of a new object. *)
Definition newRotations : RotState := RS false (Eops [] [] [] [] [] []).

(** A path as the operating system presents it: whether opening it for reading
    succeeds (ifstream), whether opening it for reading and writing succeeds
    (fstream with the default mode), and the bytes read. *)
Record fileInfo := FI { fi_in : bool; fi_inout : bool; fi_content : string }.
Definition fileSystem := string -> fileInfo.

(** std::getline with a delimiter, repeated until it fails: a piece ends at the
    delimiter or at the end of the text; a piece without any character and
    without a delimiter is not delivered. *)
Fixpoint getlines_acc (delim : ascii) (acc s : string) (some : bool) : list string :=
  match s with
  | EmptyString => if some then [acc] else []
  | String c s' =>
      if Ascii.eqb c delim then acc :: getlines_acc delim EmptyString s' false
      else getlines_acc delim (acc ++ String c EmptyString)%string s' true
  end.
Definition getlines (delim : ascii) (s : string) : list string :=
  getlines_acc delim EmptyString s false.

Definition newline : ascii := Ascii.ascii_of_nat 10.
Definition comma : ascii := ","%char.

Section Stod.
(** std::stod: the number, or an exception. *)
Variable stod : string -> option R.

Definition stodc (s : string) : outcome R := match stod s with Some x => Ret x | None => Throw end.

(** Rotations.cpp 324-350: the columns of one line; [temp] counts them. *)
Fixpoint readColumns (temp : nat) (fields : list string) (t : EopTable) : outcome EopTable :=
  match fields with
  | [] => Ret t
  | data :: rest =>
      t' <- (match temp with
             | 1%nat => x <- stodc data ;; Ret (Eops (e_mjd t ++ [x]) (e_xPole t) (e_yPole t) (e_ut1 t) (e_lod t) (e_tai t))
             | 2%nat => x <- stodc data ;; Ret (Eops (e_mjd t) (e_xPole t ++ [x]) (e_yPole t) (e_ut1 t) (e_lod t) (e_tai t))
             | 3%nat => x <- stodc data ;; Ret (Eops (e_mjd t) (e_xPole t) (e_yPole t ++ [x]) (e_ut1 t) (e_lod t) (e_tai t))
             | 4%nat => x <- stodc data ;; Ret (Eops (e_mjd t) (e_xPole t) (e_yPole t) (e_ut1 t ++ [x]) (e_lod t) (e_tai t))
             | 5%nat => x <- stodc data ;; Ret (Eops (e_mjd t) (e_xPole t) (e_yPole t) (e_ut1 t) (e_lod t ++ [x]) (e_tai t))
             | 10%nat => x <- stodc data ;; Ret (Eops (e_mjd t) (e_xPole t) (e_yPole t) (e_ut1 t) (e_lod t) (e_tai t ++ [x]))
             | _ => Ret t
             end) ;;
      readColumns (S temp) rest t'
  end.

(** Rotations.cpp 316-351: the lines after the header. *)
Fixpoint readRows (lines : list string) (t : EopTable) : outcome EopTable :=
  match lines with
  | [] => Ret t
  | line :: rest => t' <- readColumns 0 (getlines comma line) t ;; readRows rest t'
  end.

(** Rotations.cpp 292-367.  The result and the object afterwards.  When the
    fstream cannot be opened every getline fails and no row is read.  An exception
    leaves the object as it was: the table is only assigned at the end. *)
Definition getEops (fs : fileSystem) (eop : string) (st : RotState) : outcome bool * RotState :=
  if negb (fi_in (fs eop)) then (Ret false, st)
  else
    let lines := if fi_inout (fs eop) then tl (getlines newline (fi_content (fs eop))) else [] in
    match readRows lines (Eops [] [] [] [] [] []) with
    | Ret t => (Ret true, RS true t)
    | Throw => (Throw, st)
    | NonFinite => (NonFinite, st)
    | Undef => (Undef, st)
    | NoFuel => (NoFuel, st)
    end.
End Stod.

(** Rotations.cpp 835-843: index of the first entry equal to [x]. *)
Fixpoint findIndex (x : R) (l : list R) : option nat :=
  match l with
  | [] => None
  | y :: l' => if Req_EM_T y x then Some O else option_map S (findIndex x l')
  end.

(** operator[] of std::vector. *)
Definition at_ (l : list R) (i : nat) : outcome R :=
  match nth_error l i with Some x => Ret x | None => Undef end.

(** The five output arguments of getCurrentEop. *)
Record EopOut := EO { o_xPole : R; o_yPole : R; o_ut1 : R; o_lod : R; o_tai : R }.

(** Rotations.hpp 268: arcseconds per radian. *)
Definition Arcs : R := 3600 * 180 / PI.

(** Rotations.cpp 820-876. *)
Definition getCurrentEop (st : RotState) (mjd : R) (out : EopOut) : outcome (bool * EopOut) :=
  if negb (eopsSet st) then Ret (false, out)
  else
    let t := eops st in
    let mjdStart := Rfloor mjd in
    match findIndex mjdStart (e_mjd t) with
    | None => Ret (false, out)
    | Some idx =>
        preXPole <- at_ (e_xPole t) idx ;;
        preYPole <- at_ (e_yPole t) idx ;;
        preUt1 <- at_ (e_ut1 t) idx ;;
        preLod <- at_ (e_lod t) idx ;;
        preTai <- at_ (e_tai t) idx ;;
        let idx := if Nat.eqb idx (List.length (e_mjd t) - 1) then idx else S idx in
        postXPole <- at_ (e_xPole t) idx ;;
        postYPole <- at_ (e_yPole t) idx ;;
        postUt1 <- at_ (e_ut1 t) idx ;;
        postLod <- at_ (e_lod t) idx ;;
        let fixf := mjd - mjdStart in
        Ret (true, EO ((preXPole + (postXPole - preXPole) * fixf) / Arcs)
                      ((preYPole + (postYPole - preYPole) * fixf) / Arcs)
                      (preUt1 + (postUt1 - preUt1) * fixf)
                      (preLod + (postLod - preLod) * fixf)
                      preTai)
    end.
