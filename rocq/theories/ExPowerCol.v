(** * Cases for the power spectra on columns of scale factors *)
From Coquelicot Require Import Coquelicot.
From Verif Require Import Np NpLemmas Core Interp Background BgSpec Transfer Power PowerArr PowerArrSpec PowerArrProofs ExPower ExCov ExLaws BgFinal4.
From Verif Require Import Nd NdSpec NzArr BgArr NdProofs PowerNd PowerNdSpec NdBroadcast PowerNdProofs PowerCol PowerColProofs.
Opaque chi_table growth_table_ODE growth_table_gamma logspace.

Lemma columns_false : exists c T k v, fresh c /\ reachable c /\ shp k = [2%nat] /\ length v = 2%nat /\
  (exists r, linear_nd c k (column_of v) T = Ok r /\ shp r = [2%nat; 2%nat] /\ get r [1%nat; 0%nat] = linear_matter_power c (get k [0%nat]) (el v 1) T) /\
  forall rest, halofit_column c k v T rest = Err TypeError.
Proof.
  pose proof (proj1 planck_ok) as Hr. assert (Hf : fresh Planck15) by (split; reflexivity).
  exists Planck15, eisenhu, (vec [0.1; 1]), [0.5; 1]. split; [ exact Hf | split; [ exact Hr | split; [ reflexivity | split; [ reflexivity | split ]]]].
  - destruct (table Planck15 eisenhu Hf (vec [0.1; 1]) [0.5; 1] 2 eq_refl ltac:(lia) ltac:(simpl; lia)) as (r & E & Hs & G).
    exists r. split; [ exact E | split; [ exact Hs | ]]. apply G; simpl; lia.
  - intros rest. apply (halofit_columns Planck15 eisenhu Hf _ _ [2%nat; 2%nat]); [ simpl; lia | simpl; lia | reflexivity ].
Qed.
Definition acol : list R := [0.5; 0.7; 1].
Lemma case_columns : fresh Planck15 /\ _gamma_growth Planck15 = false /\ reachable Planck15 /\ fresh planck_gamma /\ _gamma_growth planck_gamma = true /\ reachable planck_gamma /\
  shp (column_of acol) = [3%nat; 1%nat] /\ bshape (shp (atleast1 (vec [0.1; 1]))) [3%nat; 1%nat] = Some [3%nat; 2%nat] /\ (2 <= length acol)%nat /\ length acol <> 257%nat /\
  shp (Nd [1%nat; 3%nat] (fun i => el acol (nth 1 i 0%nat))) = 1%nat :: [] ++ [3%nat].
Proof.
  pose proof (proj1 planck_ok) as Hr. pose proof (proj1 planck_gamma_ok) as Hr'. split; [ split; reflexivity | split; [ reflexivity | split; [ exact Hr | ]]].
  split; [ split; reflexivity | split; [ reflexivity | split; [ exact Hr' | split; [ reflexivity | split; [ reflexivity | split; [ simpl; lia | split; [ simpl; lia | reflexivity ]]]]]]].
Qed.
