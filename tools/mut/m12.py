muts=[]
def M(id,d,f,old,new,claim,edit=None):
    muts.append(dict(id=id,**{'def':d},edits=[(f,old,new)],edit=edit or f'{old!r} -> {new!r}',claim=claim))
X='ModelFloatExp2'
M('de1','fm_add_scaled',X,'if (e_zero other || (if Req_EM_T sol 0','if (e_zero other && (if Req_EM_T sol 0','C94/C91: the guard skips only if both are zero')
M('de2','fl_translate',X,'''        fadd_loop M (e_p e) (fl2l_coeff other rho c beta (e_p e)) (e_coeffs e))
      else fadd_loop M (e_p e) (fget other) (e_coeffs e))).''','''        fadd_loop M (e_p e) (fl2l_coeff other rho c beta (e_p e)) (e_coeffs e))
      else Some (e_coeffs other))).''','C94/C91: close centres: coefficients copied instead of added')
M('de3','fm_translate',X,'Some (Exp (e_p e) (e_center e) (e_zero e && e_zero other) (e_coeffs e))','Some (Exp (e_p e) (e_center e) (e_zero e && e_zero other) (fun _ => (0, 0)))','C94: a zero child clears the parent')
M('de4','fl_convert',X,'if e_zero other then Some e\n    else fnonzero e (bind (fspher M (frelative M (e_center other) (e_center e)))','if e_zero e then Some e\n    else fnonzero e (bind (fspher M (frelative M (e_center other) (e_center e)))','C94: guard tests the target instead of the source')
X='ModelFloatFmm'
M('de5','fadd_scaled_nan',X,'fm_add_scaled M e e\' a','fm_add_scaled M e\' e a','C93: element and block expansions swapped')
M('de6','float_eops',X,'lift2 (fl_convert M pow_i)','(fun l m => lift2 (fl_convert M pow_i) m l)','C93: conversion with its arguments swapped')
M('de7','float_eops',X,'Some (ModelExp.fresh p (fblock_center b));                                          (* 2628-2631 *)','Some (ModelExp.fresh p (fblock_center (b_parent (getb (st_blocks st) b))));                                          (* 2628-2631 *)','C93: local expansions centred at the parent')
if __name__=='__main__':
    import sys; print(len(muts))
