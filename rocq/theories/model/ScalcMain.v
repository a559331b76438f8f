(** examples/scalc/scalc/main.go. Not modelled: the cli library, which picks the action and
    its arguments. *)
From Coq Require Import String.
From Verif.model Require Export ScalcEx TreeText.
Local Open Scope nat_scope.
Local Open Scope list_scope.

(** What reading a line takes from standard input: [inp] lists what successive Reads return,
    none of them empty. main.go:52-54 wraps a new bufio.Reader around it for each line, so
    what a Read returned after the newline is lost. The error is dropped; at the end of the
    input the line is empty. Beyond a Reader's 4096 bytes a Read returns less: the list is
    what it returns then. *)
Fixpoint first_line (c : gostring) : option gostring :=
  match c with
  | [] => None
  | x :: r => if decide (x = c_nl) then Some [x] else match first_line r with Some w => Some (x :: w) | None => None end
  end.
Fixpoint read_line (inp : list gostring) : gostring * list gostring :=
  match inp with
  | [] => ([], [])
  | c :: r => match first_line c with
              | Some w => (w, r)
              | None => let '(w, r') := read_line r in (c ++ w, r')
              end
  end.

Section Main.
  Variable A : sarith.
  (** fmt.Sprintf("%.3f", v) for precision 3 and so on. *)
  Variable show : Z -> sf A -> gostring.
  (** scalc.go:100-103 [Pfloat.String] *)
  Definition pf_string (x : pfloat A) : gostring := show (pf_p x) (pf_v x).
  (** main.go:69-75 [format] *)
  Definition sc_format (st : list (pfloat A)) : gostring := strjoin [c_sp] (map pf_string st).

  (** main.go:49-67 [interactive], from the loop's head; the result is what is printed. *)
  Fixpoint sc_loop (l : slexer) (g : gr) (stack : gostring) (inp : list gostring) (out : gostring) (fuel : nat) : res gostring :=
    match fuel with
    | O => OutOfFuel
    | S n =>
        let out := out ++ L "> " in
        let '(input, inp) := read_line inp in
        if decide (input = L "exit" ++ [c_nl]) then Ok out
        else
          '(r, l) <-! sc_eval A l g (stack ++ [c_sp] ++ input) n;
          match r with
          | None => sc_loop l g stack inp (out ++ L "Bad input" ++ [c_nl]) n
          | Some vs => sc_loop l g (sc_format vs) inp (out ++ sc_format vs ++ [c_nl]) n
          end
    end.
  Definition sc_interactive (l : slexer) (g : gr) (inp : list gostring) (fuel : nat) : res gostring := sc_loop l g [] inp [] fuel.

  (** main.go:16-26, the action, and 32-39, the command parse: what is printed; [inr] is what
      main prints as an error. *)
  Definition sc_failed : gostring := L "Failed to parse" ++ [c_nl].
  Definition sc_action (l : slexer) (g : gr) (args : list gostring) (inp : list gostring) (fuel : nat) : res (gostring + gostring) :=
    match args with
    | [] => out <-! sc_interactive l g inp fuel; Ok (inl out)
    | _ =>
        '(r, _) <-! sc_eval A l g (strjoin [c_sp] args) fuel;
        Ok match r with None => inr sc_failed | Some vs => inl (sc_format vs ++ [c_nl]) end
    end.
End Main.
Definition sc_parse_command (print : N -> bool) (l : slexer) (g : gr) (args : list gostring) (fuel : nat) : res (gostring + gostring) :=
  '(r, _) <-! sc_parse l g (strjoin [c_sp] args) fuel;
  Ok match r with None => inr sc_failed | Some t => inl (pn_string print (Some t) ++ [c_nl]) end.
