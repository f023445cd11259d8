muts=[]
def M(id,d,f,old,new,claim,edit=None):
    muts.append(dict(id=id,**{'def':d},edits=[(f,old,new)],edit=edit or f'{old!r} -> {new!r}',claim=claim))
X='ModelFloatExp'
M('ca1','frelative',X,'ModelExp.cz a [+] (-1) [*] ModelExp.cz c)','ModelExp.cz a [+] ModelExp.cz c)','C91: centre added instead of subtracted in z')
M('ca2','fsquare3',X,'[+] ModelExp.cz d [*] ModelExp.cz d.\n  Definition frho','.\n  Definition frho','C91: distance ignores z: cosine out of range')
M('ca3','fspher',X,'(fdiv (ModelExp.cz d) rho) (fun c => Some (rho, c, fatan2','(fdiv (ModelExp.cx d) rho) (fun c => Some (rho, c, fatan2','C91: cosine with the x axis')
M('ca4','fspher',X,'fatan2 M (ModelExp.cy d) (ModelExp.cx d))))','fatan2 M (ModelExp.cx d) (ModelExp.cy d))))','C91: arguments of atan2 swapped')
M('ca5','fcharge_term',X,'fcis (- INR m [*] beta)) realFact','fcis (INR m [*] beta)) realFact','C91: sign of the azimuth of a charge')
M('ca6','fcharge_term',X,'P [*] fpow M rho (Z.of_nat n) [*] strength in','P [*] fpow M rho (Z.of_nat m) [*] strength in','C91: power of rho with the order')
M('ca7','fdipole_term',X,'(froot (1 [-] c [*] c)) (fun s =>\n    let dP_sin := dP [*] s in','(froot (1 [+] c [*] c)) (fun s =>\n    let dP_sin := dP [*] s in','C91: sine of the polar angle')
M('ca8','fdipole_term',X,'[-] fpow M rho (Z.of_nat n) [*] dP_sin [*] dAlpha in','[+] fpow M rho (Z.of_nat n) [*] dP_sin [*] dAlpha in','C91: sign of the polar part of a dipole')
M('ca9','fadd_normder',X,'ModelExp.Pt (- ModelExp.cy d) (ModelExp.cx d) 0)','ModelExp.Pt (ModelExp.cy d) (ModelExp.cx d) 0)','C91: azimuthal direction of a dipole')
M('ca10','fadd_normder',X,'(ModelExp.cx d [*] ModelExp.cx d [+] ModelExp.cy d [*] ModelExp.cy d)) (fun db','(ModelExp.cx d [*] ModelExp.cx d)) (fun db','C91: NaN for dipoles in the plane x = centre')
M('ca11','fadd_normder',X,'(froot (fdot3 normal normal)) (fun l => bind (fscale normal l) (fun nv =>','(froot (fdot3 normal normal)) (fun l => bind (Some normal) (fun nv =>','C91: normal not normalised, zero normals accepted')
M('ca12','feval_term',X,'fpow M rho (- Z.of_nat n - 1) in','fpow M rho (- Z.of_nat n) in','C91: power in the evaluation')
M('ca13','feval_term',X,'fcmulr (fcmulr (fcmul a (fcis (INR m [*] beta))) 2) realFact','fcmulr (fcmul a (fcis (INR m [*] beta))) realFact','C91: factor two of the conjugate terms')
M('ca14','fadd_charge',X,'    if Req_EM_T strength 0 then Some C\n    else bind (fspher (frelative point center)) (fun s => let \'(rho, c, beta) := s in fadd_loop p (fcharge_term','    bind (fspher (frelative point center)) (fun s => let \'(rho, c, beta) := s in fadd_loop p (fcharge_term','C91: zero charges at the centre')
M('ca15','fcmul',X,'fst a [*] snd b [+] snd a [*] fst b)','fst a [*] snd b [-] snd a [*] fst b)','C91: complex product')
M('ca16','fcadd',X,'(fst a [+] fst b, snd a [+] snd b)','(fst a [+] fst b, snd b)','C91: imaginary parts not accumulated')
M('ca17','fGetAssLegFunSphDeriv',X,'table leg_der_pointers_assignments n m) (fun p => frun','table leg_pointers_assignments n m) (fun p => frun','C91: derivative read from the value table')
M('ca18','feval',X,'| Sub a b => bind (feval x e a) (fun u => bind (feval x e b) (fun v => Some (u [-] v)))','| Sub a b => bind (feval x e a) (fun u => bind (feval x e b) (fun v => Some (v [-] u)))','C91: operands of a table subtraction swapped')
M('ca19','froot',X,'if Rlt_dec a 0 then None','if Rlt_dec a 1 then None','C91: roots of numbers below one reported as NaN')
M('ca20','fadd_loop',X,'then fcadd (C i) a else C i','then a else C i','C91: coefficients overwritten')
X='ModelFloatExp2'
M('cb1','fdown',X,'fdown (f [*] INR k) j','fdown (f [*] INR j) j','C91: factorials vanish: division by zero')
M('cb2','fA_n_m',X,'fdown 1 (n - m) [*] fdown 1 (n + m)','fdown 1 (n - m) [*] fdown 1 (n - m)','C91: table A_n_m')
M('cb3','fA_n_m',X,'if Nat.leb m n then bind','if Nat.ltb m n then bind','C91: A_n_n zero')
M('cb4','fget',X,'Nat.ltb (tri n m) (size (e_p e))','Nat.ltb (tri n m) (tri (e_p e) 0)','C91: last coefficients out of range')
M('cb5','fsum',X,'Some t => fcadd M z t | None => z','Some t => t | None => z','C91: sum overwritten')
M('cb6','fsum2',X,'fold_left (fun o nn => fsum (inner nn) (g nn) o) l (Some (0, 0))','fold_left (fun o nn => fsum (inner nn) (g nn) (Some (0, 0))) l (Some (0, 0))','C91: accumulator reset in the outer loop')
M('cb7','ffar',X,'Rlt_dec (1 [/] 10000000) d then true else false','Rlt_dec d (1 [/] 10000000) then true else false','C91: translation by zero divides by zero')
M('cb8','fm_add_scaled',X,'(e_zero other || (if Req_EM_T sol 0 then true else false))','(if Req_EM_T sol 0 then true else false)','C91: zero expansion not skipped')
M('cb9','fm2m_term',X,'if Nat.ltb (n - nn) (absn (mz - mm)) then Some None','if Nat.ltb (n - nn + 1) (absn (mz - mm)) then Some None','C91: coefficient of order above the degree read')
M('cb10','fm2m_term',X,'IZR (GSL_SIGN (mz - mm)) [*] snd g','snd g','C91: sign of the imaginary part in the translation')
M('cb11','fm2m_term',X,'pow_i (Z.abs mz - Z.abs mm - Z.abs (mz - mm))','pow_i (Z.abs mm - Z.abs mz - Z.abs (mz - mm))','C91: power of i in the translation')
M('cb12','fm2m_term',X,'bind (fA_n_m (n - nn) (absn (mz - mm))) (fun A2 => bind (fA_n_m n m) (fun A3','bind (fA_n_m n m) (fun A2 => bind (fA_n_m (n - nn) (absn (mz - mm))) (fun A3','C91: table entries exchanged')
M('cb13','fm_translate',X,'Some (Exp (e_p e) (e_center e) (e_zero e && e_zero other) (e_coeffs e))','Some (Exp (e_p e) (e_center e) (e_zero e || e_zero other) (e_coeffs e))','C91: flag of the sum')
M('cb14','fl2l_table',X,'bind (fdiv M A1 A2) (fun q =>\n        Some (q [*] A3 [*] (pow_i','bind (fdiv M A2 A1) (fun q =>\n        Some (q [*] A3 [*] (pow_i','C91: quotient in the local table')
M('cb15','fl2l_table',X,'fpow M (-1) (Z.of_nat (nn + n))','fpow M (-1) (Z.of_nat nn)','C91: sign in the local table')
M('cb16','fm2l_table',X,'Nat.ltb nn 11 && Nat.leb (absn mm) nn)%bool then\n      bind (fA_n_m nn','Nat.ltb nn 10 && Nat.leb (absn mm) nn)%bool then\n      bind (fA_n_m nn','C91: conversion table one too small')
M('cb17','fl2l_coeff',X,'seq n (p + 1 - n)','seq n (p - n)','C91: last degree missing in the local translation')
M('cb18','fl_translate',X,'frelative M (e_center other) (e_center e))) (fun s => let \'(rho, c, beta) := s in\n        fadd_loop M (e_p e) (fl2l_coeff','frelative M (e_center e) (e_center other))) (fun s => let \'(rho, c, beta) := s in\n        fadd_loop M (e_p e) (fl2l_coeff','C91: translation vector reversed')
M('cb19','fm2l_term',X,'if Z.ltb mm 0 then (fst g, - snd g) else g','if Z.ltb mm 0 then g else (fst g, - snd g)','C91: conjugation of the wrong half')
M('cb20','fm2l_term',X,'fpow M rho (- Z.of_nat n - Z.of_nat nn - 1)','fpow M rho (- Z.of_nat n - Z.of_nat nn)','C91: power in the conversion')
M('cb21','fl_convert',X,'    if e_zero other then Some e\n    else fnonzero e (bind (fspher M (frelative M (e_center other) (e_center e))) (fun s => let \'(rho, c, beta) := s in\n      fadd_loop M (e_p e) (fm2l_coeff','    if e_zero e then Some e\n    else fnonzero e (bind (fspher M (frelative M (e_center other) (e_center e))) (fun s => let \'(rho, c, beta) := s in\n      fadd_loop M (e_p e) (fm2l_coeff','C91: conversion skipped when the destination is zero')
M('cb22','fl_eval_term',X,'fcmulr M (fcmulr M (fcis M (INR m [*] beta)) 2) realFact','fcmulr M (fcis M (INR m [*] beta)) realFact','C91: factor two in the local evaluation')
M('cb23','fm_charge',X,'else fnonzero e (fadd_charge','else bind (Some e) (fun e => Some e) (* dropped *) ; fnonzero e (fadd_charge','x')
muts.pop()
M('cb24','fm_dipole',X,'if Req_EM_T q 0 then Some e else fnonzero e (fadd_normder','if e_zero e then Some e else fnonzero e (fadd_normder','C91: dipoles into an empty expansion dropped')
M('cb25','fl_evaluate',X,'if e_zero e then Some 0\n    else bind (fspher M (frelative M x (e_center e))) (fun s','if e_zero e then None\n    else bind (fspher M (frelative M x (e_center e))) (fun s','C91: value of an empty expansion')
M('ae5b','fmm_rule','ModelRunFmm','rule_at 3 m (run_node p sub np)','rule_at 3 m (fun i => match np with O => run_node p sub np i | S _ => p_node p i end)','C85: nodes of the singular rules not renumbered')
