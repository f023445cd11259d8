(** * The multipole expansion computed in rounded arithmetic

    source/multipole_expansion.cc 94-187 and 269-298 and the Legendre tables of source/ass_leg_function.cc with every
    operation rounded: the expressions of ModelExp and of ModelLegendre, operation by operation in the order of the C++
    text.  None: some double is infinite or NaN (division by zero, square root of a negative number; adding, subtracting,
    multiplying or scaling such a double never makes it finite again) or undefined behaviour.
    Simplifications: Tensor / double divides every component; pow(a, 2.) is a * a; the exponential of i t is (cos t, sin t);
    a complex number times a real one multiplies both parts, the product of complex numbers is the textbook formula. *)
From Coq Require Import ZArith List Reals Bool.
From Verif Require Import ModelLegendre ModelLegTable ModelLegApi ModelFmm ModelFloat.
From Verif Require ModelExp.
Import ListNotations.
Local Open Scope R_scope.

(** the rounded operations, the double nearest to a literal, and the functions of the C library *)
Record fmath := { fm_ops : flops; fnum : Z -> R; fcos : R -> R; fsin : R -> R; fatan2 : R -> R -> R; fpow : R -> Z -> R }.

Section FloatExp.
  Variable M : fmath.
  Notation "x [+] y" := (@aadd (@f_arith (fm_ops M)) x y) (at level 50, left associativity).
  Notation "x [*] y" := (@amul (@f_arith (fm_ops M)) x y) (at level 40, left associativity).
  Notation "x [/] y" := (@adiv (@f_arith (fm_ops M)) x y) (at level 40, left associativity).
  Notation "x [-] y" := (@fsub (fm_ops M) x y) (at level 50, left associativity).
  Definition fdiv (a b : R) : option R := if Req_EM_T b 0 then None else Some (a [/] b).
  Definition froot (a : R) : option R := if Rlt_dec a 0 then None else Some (@fsqrt (fm_ops M) a).

  (** ** The tables (ass_leg_function.cc, all member functions; accessors 521-536) *)
  Fixpoint feval (x : R) (e : env) (a : ex) : option R :=
    match a with
    | Num z => Some (fnum M z)
    | X => Some x
    | Var k => get k e
    | Neg a => bind (feval x e a) (fun u => Some (- u))
    | Add a b => bind (feval x e a) (fun u => bind (feval x e b) (fun v => Some (u [+] v)))
    | Sub a b => bind (feval x e a) (fun u => bind (feval x e b) (fun v => Some (u [-] v)))
    | Mul a b => bind (feval x e a) (fun u => bind (feval x e b) (fun v => Some (u [*] v)))
    | Div a b => bind (feval x e a) (fun u => bind (feval x e b) (fun v => fdiv u v))
    | Sqrt a => bind (feval x e a) froot
    | Pow2 a => bind (feval x e a) (fun u => Some (u [*] u))
    end.
  Fixpoint fexec (x : R) (e : env) (l : list (positive * ex)) : option env :=
    match l with [] => Some e | (k, a) :: r => bind (feval x e a) (fun v => fexec x ((k, v) :: e) r) end.
  Definition frun (p : prog) (x : R) : option R := bind (fexec x [] (fst p)) (fun e => feval x e (snd p)).
  Definition fGetAssLegFunSph (n m : nat) (x : R) : option R := bind (table leg_pointers_assignments n m) (fun p => frun p x).
  Definition fGetAssLegFunSphDeriv (n m : nat) (x : R) : option R := bind (table leg_der_pointers_assignments n m) (fun p => frun p x).

  (** ** Points and complex numbers *)
  (** point + (-1.0 * center) *)
  Definition frelative (a c : ModelExp.pt) : ModelExp.pt := ModelExp.Pt (ModelExp.cx a [+] (-1) [*] ModelExp.cx c) (ModelExp.cy a [+] (-1) [*] ModelExp.cy c) (ModelExp.cz a [+] (-1) [*] ModelExp.cz c).
  Definition fsquare3 (d : ModelExp.pt) : R := ModelExp.cx d [*] ModelExp.cx d [+] ModelExp.cy d [*] ModelExp.cy d [+] ModelExp.cz d [*] ModelExp.cz d.
  Definition frho (d : ModelExp.pt) : option R := froot (fsquare3 d).
  Definition fdot3 (a b : ModelExp.pt) : R := ModelExp.cx a [*] ModelExp.cx b [+] ModelExp.cy a [*] ModelExp.cy b [+] ModelExp.cz a [*] ModelExp.cz b.
  Definition fscale (a : ModelExp.pt) (r : R) : option ModelExp.pt :=
    bind (fdiv (ModelExp.cx a) r) (fun x => bind (fdiv (ModelExp.cy a) r) (fun y => bind (fdiv (ModelExp.cz a) r) (fun z => Some (ModelExp.Pt x y z)))).
  Definition fcis (t : R) : R * R := (fcos M t, fsin M t).
  Definition fcmulr (a : R * R) (r : R) : R * R := (fst a [*] r, snd a [*] r).
  Definition fcmul (a b : R * R) : R * R := (fst a [*] fst b [-] snd a [*] snd b, fst a [*] snd b [+] snd a [*] fst b).
  Definition fcadd (a b : R * R) : R * R := (fst a [+] fst b, snd a [+] snd b).

  (** ** Coefficients: the double loop over n, m with AddToCoeff (order p, coefficients in flat storage) *)
  Definition fadd_loop (p : nat) (f : nat -> nat -> option (R * R)) (C : nat -> R * R) : option (nat -> R * R) :=
    fold_left (fun o nm => bind o (fun C => bind (f (fst nm) (snd nm)) (fun a => 
      Some (fun i => if Nat.eqb i (ModelExp.tri (fst nm) (snd nm)) then fcadd (C i) a else C i)))) (ModelExp.nm_pairs p) (Some C).
  (** rho, cos_alpha_, beta (103-106) *)
  Definition fspher (d : ModelExp.pt) : option (R * R * R) :=
    bind (frho d) (fun rho => bind (fdiv (ModelExp.cz d) rho) (fun c => Some (rho, c, fatan2 M (ModelExp.cy d) (ModelExp.cx d)))).
  (** Add(strength, point), lines 94-125 *)
  Definition fcharge_term (strength rho c beta : R) (n m : nat) : option (R * R) :=
    bind (fGetAssLegFunSph n m c) (fun P =>
    let realFact := P [*] fpow M rho (Z.of_nat n) [*] strength in
    Some (fcmulr (fcis (- INR m [*] beta)) realFact)).
  Definition fadd_charge (p : nat) (center : ModelExp.pt) (C : nat -> R * R) (strength : R) (point : ModelExp.pt) : option (nat -> R * R) :=
    if Req_EM_T strength 0 then Some C
    else bind (fspher (frelative point center)) (fun s => let '(rho, c, beta) := s in fadd_loop p (fcharge_term strength rho c beta) C).
  (** AddNormDer(strength, point, normal), lines 127-187 *)
  Definition fdipole_term (strength rho c beta dRho dAlpha dBeta : R) (n m : nat) : option (R * R) :=
    bind (fGetAssLegFunSph n m c) (fun P =>
    bind (fGetAssLegFunSphDeriv n m c) (fun dP =>
    bind (froot (1 [-] c [*] c)) (fun s =>
    let dP_sin := dP [*] s in
    let re := INR n [*] fpow M rho (Z.of_nat n - 1) [*] P [*] dRho [-] fpow M rho (Z.of_nat n) [*] dP_sin [*] dAlpha in
    let im := - INR m [*] fpow M rho (Z.of_nat n) [*] P [*] dBeta in
    Some (fcmulr (fcmul (fcis (- INR m [*] beta)) (re, im)) strength)))).
  Definition fadd_normder (p : nat) (center : ModelExp.pt) (C : nat -> R * R) (strength : R) (point normal : ModelExp.pt) : option (nat -> R * R) :=
    if Req_EM_T strength 0 then Some C
    else
      let d := frelative point center in
      bind (froot (fdot3 normal normal)) (fun l => bind (fscale normal l) (fun nv =>
      bind (frho d) (fun rho => bind (fscale d rho) (fun dr =>
      let dRho := fdot3 dr nv in
      let beta := fatan2 M (ModelExp.cy d) (ModelExp.cx d) in
      bind (fscale (ModelExp.Pt (- ModelExp.cy d) (ModelExp.cx d) 0) (ModelExp.cx d [*] ModelExp.cx d [+] ModelExp.cy d [*] ModelExp.cy d)) (fun db =>
      let dBeta := fdot3 db nv in
      bind (fdiv (ModelExp.cz d) rho) (fun c =>
      bind (froot (1 [-] c [*] c)) (fun s =>
      bind (fscale (ModelExp.Pt (c [*] fcos M beta) (c [*] fsin M beta) (- s)) rho) (fun da =>
      let dAlpha := fdot3 da nv in
      fadd_loop p (fdipole_term strength rho c beta dRho dAlpha dBeta) C)))))))).
  (** Evaluate, lines 269-298 *)
  Definition feval_term (C : nat -> R * R) (rho c beta : R) (z : R * R) (nm : nat * nat) : option (R * R) :=
    let '(n, m) := nm in
    bind (fGetAssLegFunSph n m c) (fun P =>
    let realFact := P [*] fpow M rho (- Z.of_nat n - 1) in
    let a := C (ModelExp.tri n m) in
    Some (fcadd z (match m with O => fcmulr a realFact | _ => fcmulr (fcmulr (fcmul a (fcis (INR m [*] beta))) 2) realFact end))).
  Definition fevaluate (p : nat) (center : ModelExp.pt) (C : nat -> R * R) (x : ModelExp.pt) : option R :=
    bind (fspher (frelative x center)) (fun s => let '(rho, c, beta) := s in
      bind (fold_left (fun o nm => bind o (fun z => feval_term C rho c beta z nm)) (ModelExp.nm_pairs p) (Some (0, 0))) (fun z => Some (fst z))).
End FloatExp.
