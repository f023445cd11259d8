muts=[]
def M(id,d,f,old,new,claim,edit=None):
    muts.append(dict(id=id,**{'def':d},edits=[(f,old,new)],edit=edit or f'{old!r} -> {new!r}',claim=claim))
E='ModelExp'
M('x1','spher',E,'atan2 (cy d) (cx d))).','atan2 (cx d) (cy d))).','C07/C08: azimuth')
M('x2','A_n_m',E,'(-1) ^ n / sqrt (down_product 1 (n - m) * down_product 1 (n + m))','(-1) ^ n / sqrt (down_product 1 (n - m) * down_product 1 n)','C07/C08: normalisation')
M('x3','m_add_scaled',E,'(Cmult a (RtoC sol))','a','C06: scaled addition')
M('x4','m_add_scaled',E,'if (e_zero other || (if Req_EM_T sol 0 then true else false))%bool then Some e','if (e_zero e || (if Req_EM_T sol 0 then true else false))%bool then Some e','C05/C06: zero flag of other')
M('x5','charge_term',E,'cis (- INR m * beta)) (RtoC (P * rho ^ n * strength))','cis (INR m * beta)) (RtoC (P * rho ^ n * strength))','C07: conjugate phase')
M('x6','m_add_charge',E,'(add_loop (e_p e) (charge_term strength rho c beta) (e_coeffs e)) (fun M => Some (Exp (e_p e) (e_center e) false M))','(add_loop (e_p e) (charge_term strength rho c beta) (e_coeffs e)) (fun M => Some (Exp (e_p e) (e_center e) (e_zero e) M))','C05: zero flag cleared by a charge')
M('x7','dipole_term',E,'- rho ^ n * dP_sin * dAlpha','+ rho ^ n * dP_sin * dAlpha','C09: sign of the polar derivative')
M('x8','m_add_normder',E,'(pdivs (Pt (- cy d) (cx d) 0) (cx d ^ 2 + cy d ^ 2))','(pdivs (Pt (- cy d) (cx d) 0) rho)','C09: azimuth gradient')
M('x9','m2m_term guard',E,'if Nat.ltb (n - nn) (absn (mz - mm)) then Some (RtoC 0)','if Nat.ltb (n - nn) (absn (mz + mm)) then Some (RtoC 0)','C07')
M('x10','m2m_term phase',E,'(Cmult a (cis (- IZR mm * beta)))','(Cmult a (cis (IZR mm * beta)))','C07')
M('x11','m2m_term sign',E,'(fst g, IZR (GSL_SIGN (mz - mm)) * snd g)','(fst g, snd g)','C07: negative orders conjugate')
M('x12','m_translate',E,'(fun M => Some (Exp (e_p e) (e_center e) false M)).\n(** Evaluate, lines 269-298 *)','(fun M => Some (Exp (e_p e) (e_center e) (e_zero e) M)).\n(** Evaluate, lines 269-298 *)','C05: flag after translation')
M('x13','m_translate (same centre)',E,'else add_loop (e_p e) (fun n m => get_coeff other n m) (e_coeffs e))\n    (fun M => Some (Exp (e_p e) (e_center e) false M)).\n(** Evaluate','else Some (e_coeffs e))\n    (fun M => Some (Exp (e_p e) (e_center e) false M)).\n(** Evaluate','C07: same centre adds')
M('x14','m_eval_term',E,'P * / rho ^ (n + 1)','P * / rho ^ n','C07/C09: potential')
M('x15','m_eval_term',E,'| _ => Cmult (Cmult (Cmult a (cis (INR m * beta))) (RtoC 2)) (RtoC realFact)','| _ => Cmult (Cmult a (cis (INR m * beta))) (RtoC realFact)','factor 2 for m>0 (C07?)')
M('x16','l2l_table',E,'(re_pow_i (Z.abs mm - Z.abs (mm - Z.of_nat m) - Z.of_nat m) * (-1) ^ (nn + n))','(re_pow_i (Z.abs mm - Z.abs (mm - Z.of_nat m) - Z.of_nat m))','C08')
M('x17','l2l_term',E,'rho ^ (nn - n) * t','rho ^ nn * t','C08')
M('x18','l2l_coeff',E,'osum (seq n (p + 1 - n)) (fun nn => osum (sym_range nn) (l2l_term','osum (seq n (p - n)) (fun nn => osum (sym_range nn) (l2l_term','C08: top degree included')
M('x19','l_eval_term',E,'let realFact := P * rho ^ n in','let realFact := P * rho ^ (n + 1) in','C08')
M('x20','l_translate',E,'if e_zero other then Some e\n  else\n    bind (if Rlt_dec','if e_zero e then Some e\n  else\n    bind (if Rlt_dec','C05/C08')
M('x21','m2l_term',E,'P * / rho ^ (n + nn + 1) * t','P * / rho ^ (n + nn) * t','M2L (no exactness theorem?)')
M('x22','m2l_table',E,'re_pow_i (Z.abs (Z.of_nat m - mm) - Z.of_nat m - Z.abs mm) / (-1) ^ nn','re_pow_i (Z.abs (Z.of_nat m - mm) - Z.of_nat m - Z.abs mm)','M2L')
M('x23','l_add_vectors_step',E,'add_to p M1 n (n - m) (x, - y)','add_to p M1 n (n - m) (x, y)','C05 (Add(real, imag))?')
M('x24','l_add_vectors',E,'if Rlt_dec (1 / 10 ^ 20) sum then false else e_zero e','e_zero e','C05 finding on the flag')
M('x25','m_evaluate',E,'Definition m_evaluate (e : expansion) (x : pt) : option R :=\n  if e_zero e then Some 0','Definition m_evaluate (e : expansion) (x : pt) : option R :=\n  if negb (e_zero e) then Some 0','C05')
L='ModelLegTable'
M('l1','P_2_1_Deriv',L,'(((($1 / $4) * $2) / #2) - (($1 * $4) / #2))','(((($1 / $4) * $2) / #2) + (($1 * $4) / #2))','C12')
M('l2','P_2_0',L,'(((#3 / #2) * $1) - (#1 / #2))','(((#3 / #2) * $1) - (#1 / #3))','C11')
M('l3','pointer table',L,'((20, 19), P_20_19_Deriv)','((20, 19), P_20_18_Deriv)','C12: pointer to the wrong function')
M('l4','pointer table',L,'  ((20, 16), P_20_16_Deriv);\n','','C12: missing pointer')
S='ModelSing'
M('g1','csi_0',S,'| 0%nat => P2 (0 - px eta) (1 - py eta)\n  | 1%nat => P2 (1 - px eta) (0 - py eta)','| 0%nat => P2 (0 - px eta) (0 - py eta)\n  | 1%nat => P2 (1 - px eta) (0 - py eta)','C47')
M('g2','face_skipped',S,'(is0 (px (csi_0 eta f)) && is0 (px (csi_1 eta f))) ||','(is0 (px (csi_0 eta f))) ||','C47: only faces containing eta skipped')
M('g3','angle',S,'if Rlt_dec t 0 then t + 2 * PI else t.','t.','C47: (angle range)')
M('g4','face_interval',S,'if Rlt_dec t1 t0 then t0 - 2 * PI else t0','t0','C47: interval across the cut')
M('g5','q_rho',S,'let a := if Nat.ltb f 2 then 0 else 1 in\n  let b := if Nat.ltb f 2 then 1 else 0 in','let a := if Nat.ltb f 2 then 1 else 0 in\n  let b := if Nat.ltb f 2 then 0 else 1 in','C47: exit radius')
M('g6','eta_Jxn',S,'''  | 1%nat => jac 0%nat 1%nat * jac 2%nat 0%nat - jac 0%nat 0%nat * jac 2%nat 1%nat
  | _ => jac 0%nat 0%nat * jac 1%nat 1%nat - jac 0%nat 1%nat * jac 1%nat 0%nat
  end.
(** eta_g''','''  | 1%nat => - jac 0%nat 1%nat * jac 2%nat 0%nat + jac 0%nat 0%nat * jac 2%nat 1%nat
  | _ => jac 0%nat 0%nat * jac 1%nat 1%nat - jac 0%nat 1%nat * jac 1%nat 0%nat
  end.
(** eta_g''','C49: cross product')
M('g7','d_eta_Jxn_du',S,'g 1%nat 0%nat 0%nat * jac 2%nat 1%nat + jac 1%nat 0%nat * g 2%nat 1%nat 0%nat','g 1%nat 0%nat 0%nat * jac 2%nat 1%nat + jac 1%nat 0%nat * g 2%nat 1%nat 1%nat','C49')
M('g8','d_eta_Jxn_dv',S,'g 0%nat 0%nat 1%nat * jac 1%nat 1%nat + jac 0%nat 0%nat * g 1%nat 1%nat 1%nat','g 0%nat 0%nat 1%nat * jac 1%nat 1%nat - jac 0%nat 0%nat * g 1%nat 1%nat 1%nat','C49')
M('g9','coef_B',S,'+ d_grad d i 0%nat 1%nat * cos t * sin t + d_grad d i 1%nat 1%nat * (sin t) ^ 2 / 2','+ d_grad d i 0%nat 1%nat * cos t * sin t / 2 + d_grad d i 1%nat 1%nat * (sin t) ^ 2 / 2','C48')
M('g10','gamma',S,'- q_C d t / q_A d t ^ 4','q_C d t / q_A d t ^ 4','C56: exclusion radius')
M('g11','V_F1',S,'-3 * q_C d t * Jk0 d i / q_A d t ^ 5','3 * q_C d t * Jk0 d i / q_A d t ^ 5','C48')
M('g12','V_F1',S,'+ Jk0 d i / q_A d t ^ 3 * N1 d t','','C48: gradient of the shape function')
M('g13','V_fun',S,'-1 / r ^ 3 * (3 * (R_ i / r) * (vdot R_ n / r) - n i) * N','-1 / r ^ 3 * (3 * (R_ i / r) * (vdot R_ n / r) + n i) * N','C48')
M('g14','V_I2_term',S,'(gamma d t / beta d t ^ 2 + 1 / rhohat)','(gamma d t / beta d t ^ 2 - 1 / rhohat)','C56')
M('g15','V_I1_term',S,'V_F1 d t i * ln (Rabs (rhohat / beta d t))','V_F1 d t i * ln (Rabs rhohat)','C56')
M('g16','W_F1',S,'coef_A d t i * vnorm (eta_Jxn (d_jac d)) / q_A d t ^ 3 * N0 d','coef_A d t i * vnorm (eta_Jxn (d_jac d)) / q_A d t ^ 2 * N0 d','C48')
M('g17','r_rhorho',S,'2 * d_grad d i 0%nat 1%nat * cos t * sin t','d_grad d i 0%nat 1%nat * cos t * sin t','C49')
M('g18','b_term',S,'tmp * r_rho d t i * vnorm g / vnorm (r_rho d t) ^ 5','tmp * r_rho d t i / vnorm (r_rho d t) ^ 5','C49')
M('g19','uv_point',S,'P2 (rho * cos t + px eta) (rho * sin t + py eta)','P2 (rho * cos t + px eta) (rho * cos t + py eta)','C47')
M('g20','sing_arg',S,'fn i * rho * JxW - F2 i / rho ^ 2 - F1 i / rho','fn i * rho * JxW - F2 i / rho ^ 2','C48')
M('g21','W_I1_term',S,'W_F1 d t i * ln (Rabs (rhohat / beta d t)).','W_F1 d t i * ln (Rabs (rhohat * beta d t)).','C56')
