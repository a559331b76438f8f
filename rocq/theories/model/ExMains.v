(** examples/parlexmath/parlexmath/main.go, examples/parlexjson/parlexjson/main.go. [args] is
    os.Args[1:]; the results are what is written on standard output and on standard error. *)
From Coq Require Import String.
From Verif.model Require Export MathEx JsonEx Printing.
Local Open Scope nat_scope.
Local Open Scope list_scope.

(** parlexmath/main.go:10-22; [show] is how fmt prints a float64. *)
Definition math_main (A : arith) (show : fl A -> gostring) (l : slexer) (g : gr) (args : list gostring) (fuel : nat)
  : res (gostring * gostring) :=
  let input := strjoin (L " ") args in
  match input with
  | [] => Ok ([], L "Please provide input to parse" ++ [c_nl])
  | _ =>
      '((v, err), _) <-! mx_run A l g input fuel;
      match err with
      | Some e => Ok ([], run_error_text e)
      | None => Ok (show v ++ [c_nl], [])
      end
  end.

(** parlexjson/main.go:10-18 *)
Definition json_main (l : slexer) (g : gr) (rd : reducer) (args : list gostring) (fuel : nat) : res (gostring * gostring) :=
  '((out, err), _) <-! js_format l g rd (strjoin (L " ") args) fuel;
  match err with
  | Some e => Ok ([], run_error_text e ++ [c_nl])
  | None => Ok (out ++ [c_nl], [])
  end.
