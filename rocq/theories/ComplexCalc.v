(** Calculus for complex functions of a real variable. *)
From Coq Require Import Reals List Lra.
From Coquelicot Require Import Coquelicot.
From Verif Require Import Base BeamModel SpecComplex SpectralProofs.
Local Open Scope R_scope.

Lemma C_eq (u v : C) : fst u = fst v -> snd u = snd v -> u = v.
Proof. destruct u, v; cbn; intros -> ->; reflexivity. Qed.
Lemma Cderive_ext f g t d : (forall s, f s = g s) -> is_Cderive f t d -> is_Cderive g t d.
Proof. intros H [A B]. split; [apply (is_derive_ext (fun s => fst (f s)))|apply (is_derive_ext (fun s => snd (f s)))]; auto; intros; rewrite H; auto. Qed.
Lemma Cderive_const c t : is_Cderive (fun _ => c) t (RtoC 0).
Proof. split; cbn; apply (is_derive_const (V := R_NormedModule)). Qed.
Lemma Cderive_R f t d : is_derive f t d -> is_Cderive (fun s => RtoC (f s)) t (RtoC d).
Proof. intros H. split; cbn; auto. apply (is_derive_const (V := R_NormedModule)). Qed.
Lemma Cderive_plus f g t a b : is_Cderive f t a -> is_Cderive g t b -> is_Cderive (fun s => Cplus (f s) (g s)) t (Cplus a b).
Proof. intros [A B] [D E]. split; cbn [fst snd Cplus]; apply (is_derive_plus (V := R_NormedModule)); auto. Qed.
Lemma Cderive_minus f g t a b : is_Cderive f t a -> is_Cderive g t b -> is_Cderive (fun s => Cminus (f s) (g s)) t (Cminus a b).
Proof. intros [A B] [D E]. split; unfold Cminus; cbn [fst snd Cplus Copp]; apply (is_derive_minus (V := R_NormedModule)); auto. Qed.
Lemma Cderive_mult f g t a b : is_Cderive f t a -> is_Cderive g t b -> is_Cderive (fun s => Cmult (f s) (g s)) t (Cplus (Cmult a (g t)) (Cmult (f t) b)).
Proof.
  intros [A B] [D E]. split; cbn [fst snd Cplus Cmult].
  - replace (fst a * fst (g t) - snd a * snd (g t) + (fst (f t) * fst b - snd (f t) * snd b)) with
      (minus (plus (mult (fst a) (fst (g t))) (mult (fst (f t)) (fst b))) (plus (mult (snd a) (snd (g t))) (mult (snd (f t)) (snd b))))
      by (unfold minus, plus, opp, mult; cbn; ring).
    apply (is_derive_minus (V := R_NormedModule)); apply (is_derive_mult (K := R_AbsRing)); auto; intros; unfold mult; cbn; ring.
  - replace (fst a * snd (g t) + snd a * fst (g t) + (fst (f t) * snd b + snd (f t) * fst b)) with
      (plus (plus (mult (fst a) (snd (g t))) (mult (fst (f t)) (snd b))) (plus (mult (snd a) (fst (g t))) (mult (snd (f t)) (fst b))))
      by (unfold plus, mult; cbn; ring).
    apply (is_derive_plus (V := R_NormedModule)); apply (is_derive_mult (K := R_AbsRing)); auto; intros; unfold mult; cbn; ring.
Qed.
Lemma cexp_0 : cexp (RtoC 0) = RtoC 1.
Proof. unfold cexp. cbn. rewrite exp_0, cos_0, sin_0. apply C_eq; cbn; ring. Qed.
Lemma cexp_plus u v : cexp (Cplus u v) = Cmult (cexp u) (cexp v).
Proof. unfold cexp, Cmult, Cplus. cbn [fst snd]. rewrite exp_plus, cos_plus, sin_plus. apply C_eq; cbn; ring. Qed.
Lemma cexp_nz u : cexp u <> RtoC 0.
Proof.
  intros E. apply (f_equal (fun z => Cmult z (cexp (Copp u)))) in E. rewrite <- cexp_plus in E.
  replace (Cplus u (Copp u)) with (RtoC 0) in E by ring. rewrite cexp_0 in E. rewrite Cmult_0_l in E. injection E. lra.
Qed.
(** z |-> exp(c (z - t0)) *)
Lemma Cderive_exp (c : C) t0 t : is_Cderive (fun s => cexp (Cmult c (RtoC (s - t0)))) t (Cmult c (cexp (Cmult c (RtoC (t - t0))))).
Proof.
  destruct c as [a b]. split; cbn [cexp Cmult fst snd RtoC]; auto_derive; auto.
  all: replace (a * (t + - t0) + - (b * 0)) with (a * (t - t0) - b * 0) by ring; replace (a * 0 + b * (t + - t0)) with (a * 0 + b * (t - t0)) by ring; ring.
Qed.
Lemma CInt_by_antiderivative F f a b : (forall z, is_Cderive F z (f z)) ->
  (forall z, continuous (fun s => fst (f s)) z) -> (forall z, continuous (fun s => snd (f s)) z) -> is_CInt f a b (Cminus (F b) (F a)).
Proof.
  intros H C1 C2. split; cbn [Cminus Cplus Copp fst snd].
  - apply (RInt_by_antiderivative (fun s => fst (F s)) (fun s => fst (f s))); auto. intros z. apply H.
  - apply (RInt_by_antiderivative (fun s => snd (F s)) (fun s => snd (f s))); auto. intros z. apply H.
Qed.
