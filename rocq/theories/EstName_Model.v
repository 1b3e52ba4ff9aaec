(** pauxy/estimators/handler.py Estimators.__init__ 56-71 (root process) and
    increment_file_number / reset 111-124.
    Files are names in a list.  int() is modelled on digit strings only (signs,
    blanks and underscores, which python also accepts, are a ValueError here). *)
From Coq Require Import String Ascii DecimalString.
From Verif Require Import Base.
Open Scope nat_scope.
Open Scope string_scope.

Definition str (n : nat) : string := NilZero.string_of_uint (Nat.to_uint n).

Definition py_int (s : string) : res nat :=
  match NilZero.uint_of_string s with
  | Some u => Ok (Nat.of_uint u)
  | None => Err ValueError
  end.

(** s.split('.') *)
Fixpoint split (s : string) : list string :=
  match s with
  | "" => [""]
  | String c s' =>
      match split s' with
      | [] => [""]
      | p :: ps => if Ascii.eqb c "." then "" :: p :: ps else String c p :: ps
      end
  end.

(** basename + '.%s.h5' % index *)
Definition fname (base : string) (ix : nat) : string := base ++ "." ++ str ix ++ ".h5".

Definition isfile (files : list string) (f : string) : bool := existsb (String.eqb f) files.

(** the while loop 63-66 *)
Fixpoint find_name (fuel : nat) (files : list string) (base : string) (overwrite : bool) (f : string)
  : res string :=
  match fuel with
  | 0 => Err OutOfFuel
  | S fuel' =>
      if isfile files f && negb overwrite then
        match split f with
        | _ :: p :: _ => rbind (py_int p) (fun ix => find_name fuel' files base overwrite (fname base (ix + 1)))
        | _ => Err IndexError
        end
      else Ok f
  end.

Record opts := Opts {
  o_index : nat;               (* default 0 *)
  o_filename : option string;
  o_basename : string;         (* default "estimates" *)
  o_overwrite : bool           (* default True *)
}.

Definition default_opts : opts := Opts 0 None "estimates" true.

Definition choose (fuel : nat) (files : list string) (o : opts) : res string :=
  match o_filename o with
  | Some f => Ok f
  | None => find_name fuel files (o_basename o) (o_overwrite o) (fname (o_basename o) (o_index o))
  end.

(** opening with mode 'w' truncates: the files that keep their content *)
Definition open_w (files : list string) (f : string) : list string :=
  filter (fun g => negb (String.eqb f g)) files.
