(** * The program: command line, calls in order, exceptions, exit status.

    Models main (source/main.cc 5-56), with Driver::run (source/driver.cc 76-127) as the calls it makes, and their effect on
    whether the later ones are made.  What a single call does to the world (files, screen, data of the objects) is any function,
    and it may return or throw.

    Library code modelled after its documentation: atoi (ISO C: white space, an optional sign, digits; 0 if there is no number; undefined
    if the number is no int), conversion of int to unsigned int (modulo 2^32).

    Simplifications: the parameters are read from the world once, after they have been read from the file (they are members nothing
    else assigns); the destructors of driver and MPI_InitFinalize, which run when the try block is left, are not modelled;
    exceptions escaping from a destructor or thrown while printing end the program otherwise. *)
From Coq Require Import ZArith List Bool Ascii String.
From Verif Require Import ModelParams ModelDriver.
Import ListNotations.
Local Open Scope Z_scope.

(** atoi; None = undefined *)
Definition atoi (s : text) : option Z :=
  match scan_number s with
  | Some (neg, v, _) => let z := if neg then - v else v in if (- 2 ^ 31 <=? z) && (z <? 2 ^ 31) then Some z else None
  | None => Some 0
  end.
(** numbers::invalid_unsigned_int of deal.II *)
Definition invalid_unsigned_int : Z := 2 ^ 32 - 1.
(** the variable threads (main.cc 10-14) for the arguments argv[0..argc-1]; argc = 0 reads argv[1], which is out of bounds *)
Definition threads_of (argv : list text) : option Z :=
  match argv with
  | [] => None
  | [_] => Some invalid_unsigned_int
  | _ :: a :: _ => option_map u32 (atoi a)
  end.

(** what a call can throw: something derived from std::exception, with its text, or something else *)
Inductive thrown := Std (what : string) | Other.
(** the calls made by main and run, with the arguments that matter *)
Inductive name :=
| Start (threads : Z)      (* MPI_InitFinalize mpi_initialization(argc, argv, threads), main.cc 15 *)
| Construct                (* Driver<DEAL_II_DIMENSION> driver, main.cc 22 *)
| Read                     (* ParameterAcceptor::initialize(pname, pname2), main.cc 23 *)
| Domain                   (* computational_domain.read_domain(), driver.cc 85 *)
| Refine (level : Z)       (* computational_domain.refine_and_resize(...), driver.cc 88, 93-94 *)
| Update                   (* computational_domain.update_triangulation(), driver.cc 99, 112 *)
| Reinit                   (* bem_problem.reinit(), driver.cc 104 *)
| Solve                    (* boundary_conditions.solve_problem(), driver.cc 105 *)
| Adapt                    (* bem_problem.adaptive_refinement(boundary_conditions.get_phi()), driver.cc 110-111 *)
| Errors                   (* boundary_conditions.compute_errors(), driver.cc 117 *)
| Output                   (* boundary_conditions.output_results(filename), driver.cc 118 *)
| Summary.                 (* Teuchos::TimeMonitor::summarize(), driver.cc 122 *)

Section Program.
  Variable W : Type.
  Variable make : name -> W -> W * option thrown.   (* what a call does; Some = it throws *)
  Variables (global : W -> bool) (n_cycles pre : W -> Z).   (* the parameters, as the integers of the file *)

  (** a piece of program: None = still running when the fuel is used up *)
  Definition piece := W -> option (W * option thrown).
  Definition call (a : name) : piece := fun w => Some (make a w).
  (** sequence: an exception skips what follows *)
  Definition next (p q : piece) : piece := fun w =>
    match p w with
    | None => None
    | Some (w1, Some e) => Some (w1, Some e)
    | Some (w1, None) => q w1
    end.
  Definition nothing : piece := fun w => Some (w, None).

  (** driver.cc 101-114 *)
  Fixpoint cycles (g : bool) (c : Z) (fuel : nat) (i : Z) : piece :=
    match fuel with
    | O => fun _ => None
    | S f =>
        if i <=? c then
          next (call Reinit) (next (call Solve)
            (next (if negb g && (i <? c) then next (call Adapt) (call Update) else nothing)
              (cycles g c f (u32 (i + 1)))))
        else nothing
    end.
  (** Driver::run, driver.cc 76-123 *)
  Definition run (g : bool) (n p : Z) (fuel : nat) : piece :=
    next (call Domain) (next (call (Refine (if g then u32 n else u32 p))) (next (call Update)
      (next (cycles g (if g then 0 else u32 n) fuel 0) (next (call Errors) (next (call Output) (call Summary)))))).
  (** the try block, main.cc 9-26 *)
  Definition body (t : Z) (fuel : nat) : piece :=
    next (call (Start t)) (next (call Construct) (next (call Read) (fun w => run (global w) (n_cycles w) (pre w) fuel w))).

  Definition dashes : string := "----------------------------------------------------".
  (** the lines of the handlers, main.cc 27-52 *)
  Definition report (e : thrown) : list string :=
    match e with
    | Std what => [""; ""; dashes; "Exception on processing: "; what; "Aborting!"; dashes]
    | Other => [""; ""; dashes; "Unknown exception!"; "Aborting!"; dashes]
    end%string.
  (** main: exit status, lines on the error stream, the world it leaves (main.cc 5-56) *)
  Definition main (argv : list text) (fuel : nat) (w : W) : option (Z * list string * W) :=
    match threads_of argv with
    | None => None
    | Some t => match body t fuel w with
                | None => None
                | Some (w', None) => Some (0, [], w')
                | Some (w', Some e) => Some (1, report e, w')
                end
    end.
End Program.
