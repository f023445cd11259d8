(** * Data races and the state of a running loop (specification). *)
From Coq Require Import Reals List Arith.
From Verif Require Import ModelOctree ModelFmm ModelConc ModelWork.
Import ListNotations.
Local Open Scope nat_scope.

Section Races.
  Variables L V : Type.
  (** the next action of a running task *)
  Definition writes {A} (l : L) (t : tstate L V A) : Prop :=
    match t with Run (Wr l' _ _) => l' = l | Mid l' _ _ => l' = l | _ => False end.
  Definition accesses {A} (l : L) (t : tstate L V A) : Prop :=
    match t with Run (Rd l' _) => l' = l | _ => writes l t end.
  (** two tasks of a parallel_for about to access the same location, at least one of them writing *)
  Definition pf_conflict (ts : list (tstate L V unit)) (l : L) : Prop :=
    exists i j t t', i <> j /\ nth_error ts i = Some t /\ nth_error ts j = Some t' /\ writes l t /\ accesses l t'.
  (** the same for the workers and copiers of a WorkStream *)
  Definition slot_writes {X D} (l : L) (s : sstate L V X D) : Prop :=
    match s with Working _ _ _ _ _ t => writes l t | Copying _ _ _ _ _ _ t => writes l t | _ => False end.
  Definition slot_accesses {X D} (l : L) (s : sstate L V X D) : Prop :=
    match s with Working _ _ _ _ _ t => accesses l t | Copying _ _ _ _ _ _ t => accesses l t | _ => False end.
  Definition ws_conflict {X D} (n : nat) (s : wstate L V X D) (l : L) : Prop :=
    exists i j, i < n /\ j < n /\ i <> j /\ slot_writes l (w_slot _ _ _ _ s i) /\ slot_accesses l (w_slot _ _ _ _ s j).
End Races.

(** ** Races of the loops of ModelWork: some reachable state of the loop has a conflict at [l] *)
Section WorkRaces.
  Context {AR : arith}.
  Variable E : eops.
  Variable I : oin.
  Variable st : ost.
  Variable K : kern.
  Variable phi : nat -> R.
  Variable owned : nat -> bool.
  Notation mem := (mem loc (val E)).
  Definition pf_race {X} (items : list X) (body : X -> prog loc (val E) unit) (m : mem) (l : loc) : Prop :=
    exists m' ts, psteps loc (val E) loc_eqb loc_word (m, map (fun x => Run (body x)) items) (m', ts) /\ pf_conflict loc (val E) ts l.
  Definition ws_race {X D} (worker : X -> D -> prog loc (val E) D) (copier : D -> prog loc (val E) unit) (sample : D) (items : list X) (m : mem) (l : loc) : Prop :=
    exists n s, wsteps loc (val E) loc_eqb loc_word X D worker copier n (w_init loc (val E) X D items sample m) s /\ ws_conflict loc (val E) n s l.
  Fixpoint over_race (ls : list nat) (loop : nat -> mem -> mem -> Prop) (race : nat -> mem -> loc -> Prop) (m : mem) (l : loc) : Prop :=
    match ls with [] => False | x :: r => race x m l \/ exists m1, loop x m m1 /\ over_race r loop race m1 l end.

  Definition pattern_race (m : mem) (l : loc) : Prop :=
    ws_race (pat_worker E I st owned) (pat_copier E) ic_sample (st_childless st) m l \/
    exists m1, ws E (pat_worker E I st owned) (pat_copier E) ic_sample (st_childless st) m m1 /\
      over_race (levels I) (fun lv => ws E (pat_level_worker E I st owned lv) (pat_copier E) ic_sample (dfill st lv))
                           (fun lv => ws_race (pat_level_worker E I st owned lv) (pat_copier E) ic_sample (dfill st lv)) m1 l.
  Definition direct_race (m : mem) (l : loc) : Prop :=
    ws_race (near_work E I st K owned) (direct_copier E I) dc_sample (st_childless st) m l \/
    exists m1, ws E (near_work E I st K owned) (direct_copier E I) dc_sample (st_childless st) m m1 /\
      over_race (levels I) (fun lv => ws E (big_work E I st K owned lv) (direct_copier E I) dc_sample (dfill st lv))
                           (fun lv => ws_race (big_work E I st K owned lv) (direct_copier E I) dc_sample (dfill st lv)) m1 l.
  Definition elem_race (m : mem) (l : loc) : Prop := ws_race (elem_worker E I st K) (elem_copier E) (elem_sample E) (st_childless st) m l.
  Definition up_race (m : mem) (l : loc) : Prop :=
    pf_race (seq 0 (num_blocks st)) (create_m E) m l \/
    exists m1, pf E (seq 0 (num_blocks st)) (create_m E) m m1 /\
      (pf_race (st_childless st) (leaf_body E I st phi) m1 l \/
       exists m2, pf E (st_childless st) (leaf_body E I st phi) m1 m2 /\
         over_race (rev (levels I)) (fun lv => ws E (up_worker E st) (up_copier E) (up_sample E) (level_ids st lv))
                                    (fun lv => ws_race (up_worker E st) (up_copier E) (up_sample E) (level_ids st lv)) m2 l).
  Definition down_race (m : mem) (l : loc) : Prop :=
    exists m1, vmult_run E I phi m m1 /\
      (pf_race (seq 0 (num_blocks st)) (create_l E) m1 l \/
       exists m2, pf E (seq 0 (num_blocks st)) (create_l E) m1 m2 /\
         (over_race (levels I) (fun lv => ws E (dn_worker E I st owned) (dn_copier E) (dn_sample E) (dfill st lv))
                               (fun lv => ws_race (dn_worker E I st owned) (dn_copier E) (dn_sample E) (dfill st lv)) m2 l \/
          exists m3, over E (levels I) (fun lv => ws E (dn_worker E I st owned) (dn_copier E) (dn_sample E) (dfill st lv)) m2 m3 /\
            pf_race (st_childless st) (eval_body E st owned) m3 l)).
  (** a race at location [l] in some execution of the product *)
  Definition fmm_race (m : mem) (l : loc) : Prop :=
    direct_race m l \/ exists m1, direct_run E I st K owned m m1 /\
    (elem_race m1 l \/ exists m2, elem_run E I st K m1 m2 /\
    (up_race m2 l \/ exists m3, up_run E I st phi m2 m3 /\ down_race m3 l)).

  Variable nd : nat.
  Variable cons : nat -> option (list (nat * R)).
  Variable init : nat -> nat -> R.
  Variables dirichlet alpha : nat -> R.
  Definition prec_race (m : mem) (l : loc) : Prop :=
    ws_race (fpat_worker E owned nd cons) (fpat_copier E owned) fpat_sample (seq 0 nd) m l \/
    exists m1, ws E (fpat_worker E owned nd cons) (fpat_copier E owned) fpat_sample (seq 0 nd) m m1 /\
    (pf_race (seq 0 nd) (fill_body E owned nd cons init) m1 l \/
     exists m2, pf E (seq 0 nd) (fill_body E owned nd cons init) m1 m2 /\ pf_race (seq 0 nd) (alpha_body E owned cons dirichlet alpha) m2 l).
End WorkRaces.
