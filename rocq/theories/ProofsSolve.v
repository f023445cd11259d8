From Coq Require Import Reals List Bool Arith Lia Lra.
From Verif Require Import LibSum ModelBem ProofsBem ModelBc ProofsBc PropBem ModelSolve SpecSolve.
Import ListNotations.
Local Open Scope R_scope.

Definition kdata (S : system) (rhs : vec) : cdata :=
  {| k_n := s_n S; k_doubles := s_doubles S; k_dir := s_dir S; k_normal := s_normal S;
    k_sgrad := s_sgrad S rhs; k_rhs := rhs; k_cont := s_cont S |}.

Lemma find_first (d : nat -> bool) l f : find d l = Some f ->
  exists pre post, l = pre ++ f :: post /\ d f = true /\ forall j, In j pre -> d j = false.
Proof.
  induction l as [|a l IH]; [discriminate|]. simpl. destruct (d a) eqn:E.
  - intros [= <-]. exists [], l. repeat split; auto. intros j [].
  - intros Hf. destruct (IH Hf) as (pre & post & -> & A & B). exists (a :: pre), post. repeat split; auto. intros j [<-|Hj]; auto.
Qed.
Lemma first_find (d : nat -> bool) pre post f : d f = true -> (forall j, In j pre -> d j = false) -> find d (pre ++ f :: post) = Some f.
Proof. intros Hf Hp. induction pre as [|a pre IH]; simpl; [rewrite Hf; auto|]. rewrite (Hp a) by (left; auto). apply IH. intros; apply Hp; right; auto. Qed.

Section S.
Variable S : system.
Variable rhs : vec.
Hypothesis C : coincidence (s_n S) (s_doubles S).
Let k := kdata S rhs.
Let G : groups k := C.

Lemma first_D i f : first_dirichlet S i f -> first_of_doubles k i = f.
Proof. intros (pre & post & E & A & B). unfold first_of_doubles, k, kdata. cbn. rewrite E, (first_find _ _ _ _ A B). reflexivity. Qed.
Lemma first_N i f post : neumann_group S i -> s_doubles S i = f :: post -> first_of_doubles k i = f.
Proof.
  intros N E. unfold first_of_doubles, k, kdata. cbn. destruct (find (s_dir S) (s_doubles S i)) as [j|] eqn:F.
  - apply find_some in F as [F1 F2]. rewrite (N j F1) in F2. discriminate.
  - rewrite E. reflexivity.
Qed.
Lemma first_cases i : (i < s_n S)%nat ->
  (exists f, first_dirichlet S i f) \/ (neumann_group S i /\ exists f post, s_doubles S i = f :: post).
Proof.
  intros Hi. destruct (find (s_dir S) (s_doubles S i)) as [f|] eqn:F.
  - left. exists f. apply find_first in F. exact F.
  - right. split; [intros j Hj; eapply find_none in F; eauto|]. pose proof (proj1 C i Hi) as C1.
    destruct (s_doubles S i) as [|f post]; [destruct C1|]. eauto.
Qed.
Lemma first_D_facts i f : (i < s_n S)%nat -> first_dirichlet S i f -> s_dir S f = true /\ In f (s_doubles S i) /\ (f < s_n S)%nat /\ s_doubles S f = s_doubles S i.
Proof.
  intros Hi (pre & post & E & A & B). split; auto. assert (I : In f (s_doubles S i)) by (rewrite E; apply in_elt). split; auto. apply C; auto.
Qed.
Lemma last_dir_none l : last_dir k l = None <-> forall j, In j l -> s_dir S j = false.
Proof.
  unfold last_dir, k. cbn [k_dir kdata]. induction l as [|a l IH] using rev_ind; [split; auto; intros _ j []|].
  rewrite fold_left_app. cbn. split.
  - destruct (s_dir S a) eqn:E; [discriminate|]. intros X j Hj. apply in_app_iff in Hj as [Hj|[<-|[]]]; auto. apply IH; auto.
  - intros X. rewrite (X a) by (apply in_app_iff; right; left; auto). apply IH. intros; apply X. apply in_app_iff; auto.
Qed.
Lemma last_dir_some l j : last_dir k l = Some j <-> exists pre post, l = pre ++ j :: post /\ s_dir S j = true /\ forall m, In m post -> s_dir S m = false.
Proof.
  unfold last_dir, k. cbn [k_dir kdata]. induction l as [|a l IH] using rev_ind; [cbn; split; [discriminate|intros (pre & post & E & _); destruct pre; discriminate]|].
  rewrite fold_left_app. cbn. split.
  - destruct (s_dir S a) eqn:E; [intros [= ->]; exists l, []; repeat split; auto; intros m []|].
    intros X. apply IH in X as (pre & post & -> & A & B). exists pre, (post ++ [a]). rewrite <- app_assoc. repeat split; auto.
    intros m Hm. apply in_app_iff in Hm as [Hm|[<-|[]]]; auto.
  - intros (pre & post & E & A & B). destruct post as [|b post] using rev_ind.
    + apply app_inj_tail in E as [-> ->]. rewrite A. reflexivity.
    + clear IHpost. change (pre ++ j :: post ++ [b]) with (pre ++ (j :: post) ++ [b]) in E. rewrite app_assoc in E. apply app_inj_tail in E as [-> ->].
      rewrite (B b) by (apply in_app_iff; right; left; auto). apply IH. exists pre, post. repeat split; auto. intros; apply B. apply in_app_iff; auto.
Qed.
Lemma others_eq i f : first_of_doubles k i = f -> others k i = filter (fun j => negb (j =? f)%nat) (s_doubles S i).
Proof. intros <-. reflexivity. Qed.

(** the constraint line of a node, by case *)
Definition node_line (i : nat) (o : option line) : Prop :=
  (free_of_doubles S i /\ o = None) \/
  (s_dir S i = false /\ exists f, first_dirichlet S i f /\ o = Some {| l_entries := []; l_inhom := Some (rhs f) |}) \/
  (neumann_group S i /\ exists f post, s_doubles S i = f :: post /\ i <> f /\ o = Some {| l_entries := [(f, 1)]; l_inhom := Some 0 |}) \/
  (s_cont S = true /\ s_dir S i = true /\ exists f, first_dirichlet S i f /\ i <> f /\
     o = Some {| l_entries := []; l_inhom := other_normal_gradient (s_normal S f) (s_normal S i) (s_sgrad S rhs f) (s_sgrad S rhs i) |}) \/
  (s_cont S = true /\ first_dirichlet S i i /\ exists j pre post, s_doubles S i = pre ++ j :: post /\ s_dir S j = true /\ j <> i /\
     (forall m, In m post -> s_dir S m = false) /\
     o = Some {| l_entries := []; l_inhom := this_normal_gradient (s_normal S i) (s_normal S j) (s_sgrad S rhs i) (s_sgrad S rhs j) |}).

Lemma node_line_holds i : (i < s_n S)%nat -> node_line i (node_constraints S rhs i).
Proof.
  intros Hi. destruct G as (G1 & G2 & G3). unfold node_constraints. fold (kdata S rhs). fold k.
  rewrite (constraints_char k G1 G2 G3 i Hi). cbv zeta. unfold node_line.
  destruct (first_cases i Hi) as [(f & Hf)|(N & f & post & E)].
  - rewrite (first_D i f Hf). destruct (first_D_facts i f Hi Hf) as (Df & If & Lf & Sf).
    cbn [k_dir k_cont k_normal k_sgrad k_rhs kdata k] in *. unfold k; cbn [k_dir k_cont k_normal k_sgrad k_rhs kdata]. rewrite Df. cbn [andb].
    destruct (Nat.eqb_spec i f) as [->|Ne].
    + unfold k. fold k. destruct (s_cont S) eqn:Ec.
      * rewrite (others_eq f f (first_D f f Hf)). destruct (last_dir k _) as [j|] eqn:L.
        -- right; right; right; right. split; auto. split; auto. apply last_dir_some in L as (pre & post & E & A & B).
           assert (Ij : In j (s_doubles S f) /\ j <> f).
           { assert (X : In j (filter (fun j => negb (j =? f)%nat) (s_doubles S f))) by (rewrite E; apply in_elt). apply filter_In in X as [X Y].
             split; auto. apply negb_true_iff, Nat.eqb_neq in Y. auto. }
           destruct Ij as [Ij Nj]. destruct Hf as (p0 & q0 & E0 & _ & B0).
           assert (P : In j q0). { rewrite E0 in Ij. apply in_app_iff in Ij as [Ij|[Ij|Ij]]; [rewrite B0 in A by auto; discriminate|congruence|auto]. }
           assert (ND : NoDup (p0 ++ f :: q0)) by (rewrite <- E0; apply C; auto).
           assert (FE : filter (fun j => negb (j =? f)%nat) (s_doubles S f) = p0 ++ q0).
           { rewrite E0, filter_app. cbn. rewrite Nat.eqb_refl. cbn. apply NoDup_remove_2 in ND.
             assert (Z : forall l, (~ In f l) -> filter (fun j => negb (j =? f)%nat) l = l).
             { induction l as [|a l IH]; intros Ni; auto. cbn. destruct (Nat.eqb_spec a f); [subst; exfalso; apply Ni; left; auto|]. cbn. f_equal. apply IH. intros X; apply Ni; right; auto. }
             rewrite !Z; auto; intros X; apply ND; apply in_app_iff; auto. }
           apply in_split in P as (q1 & q2 & ->).
           rewrite FE in E. exists j, (p0 ++ f :: q1), q2. rewrite E0. rewrite <- app_assoc. cbn. repeat split; auto.
           intros m Hm. destruct (s_dir S m) eqn:Em; auto. exfalso.
           (* position of j in the filtered list *)
           assert (NDf : NoDup (pre ++ j :: post)). { rewrite <- E. apply NoDup_remove_1 in ND. exact ND. }
           assert (Q : pre ++ j :: post = (p0 ++ q1) ++ j :: q2) by (rewrite <- app_assoc; symmetry; exact E).
           assert (U : post = q2).
           { clear - NDf Q. revert Q NDf. generalize (p0 ++ q1) as r. induction pre as [|a pre IH]; intros r Q ND.
             - destruct r as [|b r]; cbn in Q; [injection Q; auto|]. injection Q as <- Q. exfalso. cbn in ND. inversion ND; subst. apply H1. apply in_elt.
             - destruct r as [|b r]; cbn in Q.
               + injection Q as -> Q. exfalso. cbn in ND. inversion ND; subst. apply H1. apply in_elt.
               + injection Q as -> Q. apply (IH r); auto. cbn in ND. inversion ND; auto. }
           subst q2. rewrite (B m Hm) in Em. discriminate.
        -- left. split; auto. unfold free_of_doubles. rewrite Df. right. intros (j & Hj & Nj & Dj).
           rewrite last_dir_none in L. rewrite (L j) in Dj; [discriminate|]. apply filter_In. split; auto. apply negb_true_iff, Nat.eqb_neq; auto.
      * left. split; auto. unfold free_of_doubles. rewrite Df. auto.
    + destruct (s_dir S i) eqn:Di.
      * destruct (s_cont S) eqn:Ec.
        -- right; right; right; left. repeat split; auto. exists f. auto.
        -- left. split; auto. unfold free_of_doubles. rewrite Di. auto.
      * right; left. split; auto. exists f. auto.
  - rewrite (first_N i f post N E).
    assert (If : In f (s_doubles S i)) by (rewrite E; left; auto). assert (Df := N f If).
    unfold k; cbn [k_dir k_cont k_normal k_sgrad k_rhs kdata]. rewrite Df. cbn [andb].
    destruct (Nat.eqb_spec i f) as [->|Ne].
    + left. split; auto. unfold free_of_doubles. rewrite Df. split; auto. exists post; auto.
    + right; right; left. split; auto. exists f, post. auto.
Qed.

Lemma node_free i : (i < s_n S)%nat -> (constrained (node_constraints S rhs) i = false <-> free_of_doubles S i).
Proof.
  intros Hi. assert (L := node_line_holds i Hi). unfold constrained.
  destruct L as [[F ->]|[(D & f & Hf & ->)|[(N & f & post & E & Ne & ->)|[(Ec & D & f & Hf & Ne & ->)|(Ec & Hf & j & pre & post & E & Dj & Nj & B & ->)]]]].
  - tauto.
  - split; [discriminate|]. unfold free_of_doubles. rewrite D. intros (N & _). destruct (first_D_facts i f Hi Hf) as (Df & If & _). rewrite (N f If) in Df. discriminate.
  - split; [discriminate|]. unfold free_of_doubles. rewrite (N i) by (apply C; auto). intros (_ & p' & E'). rewrite E in E'. injection E' as -> _. congruence.
  - split; [discriminate|]. unfold free_of_doubles. rewrite D. intros [X|X]; [congruence|]. exfalso. apply X. exists f. destruct (first_D_facts i f Hi Hf) as (Df & If & _). auto.
  - split; [discriminate|]. unfold free_of_doubles. destruct (first_D_facts i i Hi Hf) as (Df & If & _). rewrite Df. intros [X|X]; [congruence|]. exfalso. apply X. exists j. split; [rewrite E; apply in_elt|auto].
Qed.
End S.
