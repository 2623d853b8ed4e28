From Coq Require Import Lra Lia.
From Verif Require Import Prelude PreludeFacts CfdMeshModel CfdModel CfdSpec FemModel FemFacts MarSpec MarProofs.
Open Scope R_scope.

(** three surface cells of width 1, all liquid, hotter to the right, surface tension falling with temperature *)
Definition am3 : amargs := mkAm (mkMesh3 3 1 1 3 1 1) (mkMesh3 3 1 1 3 1 1) 1 1 (0, 0, 0) 1 1 1 1 1 1600 1700 1 1 1 300 (-1) 1 1 1 (fun _ => 1) (fun _ => 1) 0.
Definition hot_right : arr := fun i j k => 2000 + 100 * INR i.
Lemma am3_dx : dXx (a_local am3) = 1. Proof. unfold dXx. cbn. field. Qed.
Lemma am3_dy : dXy (a_local am3) = 1. Proof. unfold dXy. cbn. field. Qed.
Lemma am3_dz : dXz (a_local am3) = 1. Proof. unfold dXz. cbn. field. Qed.
Lemma am3_ok : a_visco am3 <> 0 /\ dXx (a_local am3) <> 0 /\ dXy (a_local am3) <> 0 /\ dXz (a_local am3) <> 0 /\ a_Ts am3 < a_Tl am3.
Proof. rewrite am3_dx, am3_dy, am3_dz. cbn. lra. Qed.
Lemma hot_liquid i j : a_Tl am3 <= surface_T am3 hot_right i j.
Proof. unfold surface_T, hot_right. cbn [a_Tl am3]. pose proof (pos_INR i). lra. Qed.
Lemma hot_linear i j : surface_T am3 hot_right i j = 2000 + 100 * (INR i * dXx (a_local am3)).
Proof. rewrite am3_dx. unfold surface_T, hot_right. ring. Qed.
Lemma hot_shear vel : surface_shear am3 hot_right vel 0 0 0 = -50 /\ surface_shear am3 hot_right vel 0 1 0 = -100 /\ surface_shear am3 hot_right vel 0 2 0 = -50.
Proof.
  destruct am3_ok as (H1 & H2 & H3 & H4 & H5). split; [|split].
  - rewrite (linear_first am3 hot_right 2000 100) by (auto using hot_linear, hot_liquid; cbn; lia). cbn. field.
  - rewrite (linear_inner am3 hot_right 2000 100) by (auto using hot_linear, hot_liquid; cbn; lia). cbn. field.
  - change 2%nat with (mNx (a_local am3) - 1)%nat. rewrite (linear_last am3 hot_right 2000 100) by (auto using hot_linear, hot_liquid; cbn; lia). cbn. field.
Qed.
Close Scope R_scope.
