(** Line-line covariances for exponential and gamma responses. *)
From Coq Require Import Reals Lra Lia.
From Coquelicot Require Import Coquelicot.
From Verif Require Import SemisepModel SemisepProofs KernelCalc KernelSpec KernelModel KernelTophat KernelExp KernelExp2.
Open Scope R_scope.

Section Two.
Variables T tau1 tau2 : R.
Hypothesis T0 : 0 < T.
Hypothesis tau10 : 0 < tau1.
Hypothesis tau20 : 0 < tau2.
Let p1 := (T - tau1) / T.
Let p2 := (T + tau1) / T.
Let p3 := (T + tau2) / T.
Let p4 := (T - tau2) / T.
Let p51 := (tau1 + tau2) / tau1.
Let p52 := (tau1 + tau2) / tau2.

(** covariance of the continuum with line 2, seen from line 1: cE(-x), cG(-x) *)
Definition gE_l : R -> R :=
  if Req_EM_T T tau2 then ep2 T (1 / p3) (- / T) 0 tau2 0 0 0
  else ep2 T (1 / p4) 0 0 tau2 (- 1 / p4 + 1 / p3) 0 0.
Definition gE_r : R -> R := ep2 (- T) (1 / p3) 0 0 (- tau1) 0 0 0.
Definition gG_l : R -> R :=
  if Req_EM_T T tau2 then ep2 T (1 / (p3 * p3)) (- 1 / (T * p3)) (1 / (2 * (T * T))) tau2 0 0 0
  else ep2 T (1 / (p4 * p4)) 0 0 tau2 (- 1 / (p4 * p4) + 1 / (p3 * p3)) (1 / (tau2 * p4) - 1 / (tau2 * p3)) 0.
Definition gG_r : R -> R := ep2 (- T) (1 / (p3 * p3)) 0 0 (- tau1) 0 0 0.

Lemma gE_flip x : cE T tau2 (- x) = glue gE_l gE_r x.
Proof.
  unfold cE, glue. destruct (Rle_dec (- x) 0) as [L|L], (Rle_dec x 0) as [M|M]; try lra.
  - assert (x = 0) by lra. subst x. rewrite Ropp_0. unfold cE_l, gE_l. fold p3.
    destruct (Req_EM_T T tau2); rewrite !ep2_0; unfold Rdiv; ring.
  - unfold cE_l, gE_r, ep2, ep. fold p3. replace (- x / T) with (x / - T) by (field; lra). ring.
  - unfold cE_r, gE_l. fold p3 p4. destruct (Req_EM_T T tau2); unfold ep2, ep;
    replace (- x / - T) with (x / T) by (field; lra); replace (- x / - tau2) with (x / tau2) by (field; lra); ring.
Qed.
Lemma gG_flip x : cG T tau2 (- x) = glue gG_l gG_r x.
Proof.
  unfold cG, glue. destruct (Rle_dec (- x) 0) as [L|L], (Rle_dec x 0) as [M|M]; try lra.
  - assert (x = 0) by lra. subst x. rewrite Ropp_0. unfold cG_l, gG_l. fold p3.
    destruct (Req_EM_T T tau2); rewrite !ep2_0; unfold Rdiv; ring.
  - unfold cG_l, gG_r, ep2, ep. fold p3. replace (- x / T) with (x / - T) by (field; lra). ring.
  - unfold cG_r, gG_l. fold p3 p4. destruct (Req_EM_T T tau2); unfold ep2, ep;
    replace (- x / - T) with (x / T) by (field; lra); replace (- x / - tau2) with (x / tau2) by (field; lra); unfold Rdiv; ring.
Qed.

(** the line-line forms, exponential *)
Definition lE_l : R -> R :=
  if Req_EM_T T tau2 then ep2 T (tau1 / tau2 / p2 / p2 + 1 / (p3 * p52)) (- / (tau2 * p2)) 0 tau2 0 0 0
  else ep2 T (1 / (p2 * p4)) 0 0 tau2 (/ (p4 * p52) * (- 1 + p4 / p3)) 0 0.
Definition lE_r : R -> R :=
  if Req_EM_T T tau1 then ep2 (- T) (tau2 / tau1 / p3 / p3 + 1 / (p2 * p51)) (/ (tau1 * p3)) 0 (- tau1) 0 0 0
  else ep2 (- T) (1 / (p1 * p3)) 0 0 (- tau1) (/ (p1 * p51) * (- 1 + p1 / p2)) 0 0.
Definition lE : R -> R := glue lE_l lE_r.
(** gamma; [lG_l_of ep2] is the form itself, [lG_l_of (ops tau1)] applies
    H -> H + tau1 H' to it *)
Definition ops tau s a0 a1 a2 r b0 b1 b2 : R -> R :=
  ep2 s (a0 * (1 + tau / s) + tau * a1) (a1 * (1 + tau / s) + 2 * tau * a2) (a2 * (1 + tau / s))
      r (b0 * (1 + tau / r) + tau * b1) (b1 * (1 + tau / r) + 2 * tau * b2) (b2 * (1 + tau / r)).
Definition lG_l_of (k : R -> R -> R -> R -> R -> R -> R -> R -> R -> R) : R -> R :=
  if Req_EM_T T tau2 then
    k T ((tau1 / tau2) * (tau1 / tau2) / (p2 * p2 * p2 * p2) * 3 + (1 + 2 * p3 / p51) / (p3 * p3 * p52 * p52))
          ((tau1 / tau2) * (tau1 / tau2) / (p2 * p2 * p2 * p2) * (- 2 * p2 / tau1) - p3 / tau2 / (p3 * p3 * p52 * p52))
          ((tau1 / tau2) * (tau1 / tau2) / (p2 * p2 * p2 * p2) * (p2 * p2 / (tau1 * tau1) / 2)) tau2 0 0 0
  else
    k T (1 / (p2 * p2 * p4 * p4)) 0 0
        tau2 ((- (1 + 2 * p4 / p51) + (1 + 2 * p3 / p51) * (p4 * p4) / (p3 * p3)) / (p4 * p4 * p52 * p52))
             ((p4 / tau2 - p3 / tau2 * (p4 * p4) / (p3 * p3)) / (p4 * p4 * p52 * p52)) 0.
Definition lG_r_of (k : R -> R -> R -> R -> R -> R -> R -> R -> R -> R) : R -> R :=
  if Req_EM_T T tau1 then
    k (- T) ((tau2 / tau1) * (tau2 / tau1) / (p3 * p3 * p3 * p3) * 3 + (1 + 2 * p2 / p52) / (p2 * p2 * p51 * p51))
          ((tau2 / tau1) * (tau2 / tau1) / (p3 * p3 * p3 * p3) * (2 * p3 / tau2) + p2 / tau1 / (p2 * p2 * p51 * p51))
          ((tau2 / tau1) * (tau2 / tau1) / (p3 * p3 * p3 * p3) * (p3 * p3 / (tau2 * tau2) / 2)) (- tau1) 0 0 0
  else
    k (- T) (1 / (p1 * p1 * p3 * p3)) 0 0
        (- tau1) ((- (1 + 2 * p1 / p52) + (1 + 2 * p2 / p52) * (p1 * p1) / (p2 * p2)) / (p1 * p1 * p51 * p51))
             ((- (p1 / tau1) + p2 / tau1 * (p1 * p1) / (p2 * p2)) / (p1 * p1 * p51 * p51)) 0.
Definition lG_l := lG_l_of ep2.
Definition lG_r := lG_r_of ep2.
Definition m_l := lG_l_of (ops tau1).
Definition m_r := lG_r_of (ops tau1).
Definition lG : R -> R := glue lG_l lG_r.

Ltac unp := unfold p1, p2, p3, p4, p51, p52.
Ltac fin := first [field; repeat split; lra | idtac].

Lemma gE_0 : gE_l 0 = gE_r 0.
Proof. unfold gE_l, gE_r. destruct (Req_EM_T T tau2); rewrite !ep2_0; unfold Rdiv; ring. Qed.
Lemma gG_0 : gG_l 0 = gG_r 0.
Proof. unfold gG_l, gG_r. destruct (Req_EM_T T tau2); rewrite !ep2_0; unfold Rdiv; ring. Qed.
Lemma lE_0 : lE_l 0 = lE_r 0.
Proof.
  unfold lE_l, lE_r. destruct (Req_EM_T T tau2) as [E2|N2], (Req_EM_T T tau1) as [E1|N1]; rewrite !ep2_0; unp.
  - rewrite <- E1, <- E2. field. lra.
  - rewrite <- E2. field. repeat split; lra.
  - rewrite <- E1. field. repeat split; lra.
  - field. repeat split; lra.
Qed.
Lemma lG_0 : lG_l 0 = lG_r 0.
Proof.
  unfold lG_l, lG_r, lG_l_of, lG_r_of. destruct (Req_EM_T T tau2) as [E2|N2], (Req_EM_T T tau1) as [E1|N1]; rewrite !ep2_0; unp.
  - rewrite <- E1, <- E2. field. lra.
  - rewrite <- E2. field. repeat split; lra.
  - rewrite <- E1. field. repeat split; lra.
  - field. repeat split; lra.
Qed.
Lemma lE_ode : ode tau1 lE (glue gE_l gE_r).
Proof.
  intros x. unfold lE. apply glue_ode; [lra| | |apply lE_0|apply gE_0].
  - intros y. unfold lE_l, gE_l. destruct (Req_EM_T T tau2) as [E2|N2].
    + apply ep2_ode; try lra; unp; rewrite <- ?E2; field; repeat split; lra.
    + apply ep2_ode; try lra; unp; field; repeat split; lra.
  - intros y. unfold lE_r, gE_r. destruct (Req_EM_T T tau1) as [E1|N1].
    + apply ep2_ode; try lra; unp; rewrite <- ?E1; field; repeat split; lra.
    + apply ep2_ode; try lra; unp; field; repeat split; lra.
Qed.

Lemma m_0 : m_l 0 = m_r 0.
Proof.
  unfold m_l, m_r, lG_l_of, lG_r_of, ops. destruct (Req_EM_T T tau2) as [E2|N2], (Req_EM_T T tau1) as [E1|N1]; rewrite !ep2_0; unp.
  - rewrite <- E1, <- E2. field. lra.
  - rewrite <- E2. field. repeat split; lra.
  - rewrite <- E1. field. repeat split; lra.
  - field. repeat split; lra.
Qed.
Lemma lG_ode : ode tau1 lG (glue m_l m_r).
Proof.
  intros x. unfold lG. apply glue_ode; [lra| | |apply lG_0|apply m_0].
  - intros y. unfold lG_l, m_l, lG_l_of, ops. destruct (Req_EM_T T tau2) as [E2|N2]; apply ep2_ode; lra || reflexivity.
  - intros y. unfold lG_r, m_r, lG_r_of, ops. destruct (Req_EM_T T tau1) as [E1|N1]; apply ep2_ode; lra || reflexivity.
Qed.
Lemma m_ode : ode tau1 (glue m_l m_r) (glue gG_l gG_r).
Proof.
  intros x. apply glue_ode; [lra| | |apply m_0|apply gG_0].
  - intros y. unfold gG_l, m_l, lG_l_of, ops. destruct (Req_EM_T T tau2) as [E2|N2].
    + apply ep2_ode; try lra; unp; rewrite <- ?E2; field; repeat split; lra.
    + apply ep2_ode; try lra; unp; field; repeat split; lra.
  - intros y. unfold gG_r, m_r, lG_r_of, ops. destruct (Req_EM_T T tau1) as [E1|N1].
    + apply ep2_ode; try lra; unp; rewrite <- ?E1; field; repeat split; lra.
    + apply ep2_ode; try lra; unp; field; repeat split; lra.
Qed.

Lemma lE_bound : exists C, forall x, x <= 0 -> Rabs (lE x) <= C.
Proof.
  unfold lE, lE_l. destruct (Req_EM_T T tau2);
  match goal with |- context[glue (ep2 ?s ?a ?b ?c ?r ?d ?e ?f) _] => destruct (ep2_bound s a b c r d e f) as [C HC]; [lra|lra|] end;
  exists C; apply glue_bound; exact HC.
Qed.
Lemma lG_bound : exists C, forall x, x <= 0 -> Rabs (lG x) <= C.
Proof.
  unfold lG, lG_l, lG_l_of. destruct (Req_EM_T T tau2);
  match goal with |- context[glue (ep2 ?s ?a ?b ?c ?r ?d ?e ?f) _] => destruct (ep2_bound s a b c r d e f) as [C HC]; [lra|lra|] end;
  exists C; apply glue_bound; exact HC.
Qed.
Lemma m_bound : exists C, forall x, x <= 0 -> Rabs (glue m_l m_r x) <= C.
Proof.
  unfold m_l, lG_l_of, ops. destruct (Req_EM_T T tau2);
  match goal with |- context[glue (ep2 ?s ?a ?b ?c ?r ?d ?e ?f) _] => destruct (ep2_bound s a b c r d e f) as [C HC]; [lra|lra|] end;
  exists C; apply glue_bound; exact HC.
Qed.

(** what the code computes *)
Lemma pp_pos : 0 < p2 /\ 0 < p3 /\ 0 < p51 /\ 0 < p52.
Proof. unp. repeat split; apply Rdiv_lt_0_compat; lra. Qed.
Lemma p_nz a : T <> a -> (T - a) / T <> 0.
Proof.
  intros N Z. apply N. apply Rmult_eq_compat_r with (r := T) in Z. unfold Rdiv in Z. rewrite Rmult_assoc, Rinv_l in Z by lra. lra.
Qed.
Lemma sll1_exp_exact f1 c1 f2 c2 D : clear_of_band T tau1 -> clear_of_band T tau2 ->
  sll1_exp T f1 c1 tau1 f2 c2 tau2 D = f1 * (f2 * lE (D - ((c1 - tau1) - (c2 - tau2)))).
Proof.
  intros B1 B2. unfold sll1_exp. cbv zeta. set (x := D - (c1 - tau1 - (c2 - tau2))). fold p1 p2 p3 p4 p51 p52.
  destruct pp_pos as (P2 & P3 & P51 & P52). unfold lE, glue. destruct (Rle_dec x 0) as [L|L].
  - unfold lE_l. destruct (band_cases T tau2 T0 tau20 B2) as [[E S]|[E S]]; fold p4 in S;
    destruct (Rlt_dec (Rabs p4) EPS), (Req_EM_T T tau2); try contradiction.
    + unfold ep2, ep. field. lra.
    + pose proof (p_nz tau2 E : p4 <> 0). unfold ep2, ep. field. lra.
  - unfold lE_r. destruct (band_cases T tau1 T0 tau10 B1) as [[E S]|[E S]]; fold p1 in S;
    destruct (Rlt_dec (Rabs p1) EPS), (Req_EM_T T tau1); try contradiction.
    + unfold ep2, ep. replace (x / - T) with (- x / T) by (field; lra). field. lra.
    + pose proof (p_nz tau1 E : p1 <> 0). unfold ep2, ep. replace (x / - T) with (- x / T) by (field; lra).
      replace (x / - tau1) with (- x / tau1) by (field; lra). field. lra.
Qed.
Lemma sll1_gamma_exact f1 c1 f2 c2 D : clear_of_band T tau1 -> clear_of_band T tau2 ->
  sll1_gamma T f1 c1 tau1 f2 c2 tau2 D = f1 * (f2 * lG (D - ((c1 - 2 * tau1) - (c2 - 2 * tau2)))).
Proof.
  intros B1 B2. unfold sll1_gamma. cbv zeta. set (x := D - (c1 - 2 * tau1 - (c2 - 2 * tau2))). fold p1 p2 p3 p4 p51 p52.
  destruct pp_pos as (P2 & P3 & P51 & P52). unfold lG, glue. destruct (Rle_dec x 0) as [L|L].
  - unfold lG_l, lG_l_of. destruct (band_cases T tau2 T0 tau20 B2) as [[E S]|[E S]]; fold p4 in S;
    destruct (Rlt_dec (Rabs p4) EPS), (Req_EM_T T tau2); try contradiction.
    + unfold ep2, ep. field. lra.
    + pose proof (p_nz tau2 E : p4 <> 0). unfold ep2, ep. field. lra.
  - unfold lG_r, lG_r_of. destruct (band_cases T tau1 T0 tau10 B1) as [[E S]|[E S]]; fold p1 in S;
    destruct (Rlt_dec (Rabs p1) EPS), (Req_EM_T T tau1); try contradiction.
    + unfold ep2, ep. replace (x / - T) with (- x / T) by (field; lra). field. lra.
    + pose proof (p_nz tau1 E : p1 <> 0). unfold ep2, ep. replace (x / - T) with (- x / T) by (field; lra).
      replace (x / - tau1) with (- x / tau1) by (field; lra). field. lra.
Qed.
End Two.

(** the inner integral is that of the continuum with line 2 *)
Lemma exp_ll T c1 c2 t1 t2 : 0 < T -> 0 < width c1 -> 0 < width c2 ->
  whole_line (fun a => exponential c1 a * (area c2 * cE T (width c2) (t2 - (t1 - a) - (centre c2 - width c2))))
    (area c1 * (area c2 * lE T (width c1) (width c2) (t1 - t2 - ((centre c1 - width c1) - (centre c2 - width c2))))).
Proof.
  intros T0 W1 W2.
  destruct (lE_bound T (width c1) (width c2) T0 W2) as [C HC].
  set (t01 := centre c1 - width c1). set (t02 := centre c2 - width c2).
  pose proof (exp_conv (lE T (width c1) (width c2)) (glue (gE_l T (width c2)) (gE_r T (width c1) (width c2)))
    (area c1) t01 (width c1) (t1 - t2 + t02) C W1
    (lE_ode T (width c1) (width c2) T0 W1 W2)) as G.
  specialize (G ltac:(intros x; apply continuous_ext with (fun x => cE T (width c2) (- x));
    [intros y; apply gE_flip; assumption | apply (cont_comp (cE T (width c2)) (fun y => - y) x);
      [apply ex_derive_cont; auto_derive; exact I | apply cE_continuous; assumption]]) HC).
  apply (wl_scal (area c2)) in G.
  replace (area c1 * (area c2 * lE T (width c1) (width c2) (t1 - t2 - (t01 - t02))))
    with (area c2 * (area c1 * lE T (width c1) (width c2) (t1 - t2 + t02 - t01))).
  2:{ replace (t1 - t2 - (t01 - t02)) with (t1 - t2 + t02 - t01) by ring. ring. }
  eapply wl_ext; [|exact G]. intros a. cbv beta. unfold exponential. fold t01. cbv zeta.
  rewrite <- gE_flip by assumption. replace (t2 - (t1 - a) - t02) with (- (t1 - t2 + t02 - a)) by ring. ring.
Qed.
Lemma gamma_ll T c1 c2 t1 t2 : 0 < T -> 0 < width c1 -> 0 < width c2 ->
  whole_line (fun a => gamma2 c1 a * (area c2 * cG T (width c2) (t2 - (t1 - a) - (centre c2 - 2 * width c2))))
    (area c1 * (area c2 * lG T (width c1) (width c2) (t1 - t2 - ((centre c1 - 2 * width c1) - (centre c2 - 2 * width c2))))).
Proof.
  intros T0 W1 W2.
  destruct (lG_bound T (width c1) (width c2) T0 W2) as [C HC].
  destruct (m_bound T (width c1) (width c2) T0 W2) as [C' HC'].
  set (t01 := centre c1 - 2 * width c1). set (t02 := centre c2 - 2 * width c2).
  pose proof (gamma_conv (lG T (width c1) (width c2)) (glue (m_l T (width c1) (width c2)) (m_r T (width c1) (width c2)))
    (glue (gG_l T (width c2)) (gG_r T (width c1) (width c2)))
    (area c1) t01 (width c1) (t1 - t2 + t02) (Rmax C C') W1
    (lG_ode T (width c1) (width c2) T0 W1 W2) (m_ode T (width c1) (width c2) T0 W1 W2)) as G.
  specialize (G ltac:(intros x; apply continuous_ext with (fun x => cG T (width c2) (- x));
    [intros y; apply gG_flip; assumption | apply (cont_comp (cG T (width c2)) (fun y => - y) x);
      [apply ex_derive_cont; auto_derive; exact I | apply cG_continuous; assumption]])
    ltac:(intros x X; eapply Rle_trans; [apply HC, X | apply Rmax_l])
    ltac:(intros x X; eapply Rle_trans; [apply HC', X | apply Rmax_r])).
  apply (wl_scal (area c2)) in G.
  replace (area c1 * (area c2 * lG T (width c1) (width c2) (t1 - t2 - (t01 - t02))))
    with (area c2 * (area c1 * lG T (width c1) (width c2) (t1 - t2 + t02 - t01))).
  2:{ replace (t1 - t2 - (t01 - t02)) with (t1 - t2 + t02 - t01) by ring. ring. }
  eapply wl_ext; [|exact G]. intros a. cbv beta. unfold gamma2. fold t01. cbv zeta.
  rewrite <- gG_flip by assumption. replace (t2 - (t1 - a) - t02) with (- (t1 - t2 + t02 - a)) by ring. ring.
Qed.
