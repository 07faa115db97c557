(** Small concrete TT objects over the integers, used to show that the hypotheses of the
    theorems can be met. *)
From Coq Require Import String List Arith ZArith Lia Bool Reals.
From Verif Require Import Scalar Tensor Base Spec Ops Dense.
Import ListNotations.
Local Open Scope Z_scope.

Definition zt (sh : list nat) (l : list Z) : tensor Zring := @Tensor Zring sh l.

(** 2 x 3 x 2 TT-tensors with ranks (1,2,2,1) and (1,1,2,1). *)
Definition s_a : tt Zring :=
  TT [zt [1;2;2]%nat [1;2;3;-4]; zt [2;3;2]%nat [1;0;2;-1;0;3;5;1;1;2;-2;7]; zt [2;2;1]%nat [4;1;-1;2]]
     [[2;3;2]%nat] [1;2;2;1]%nat None.
Definition s_b : tt Zring :=
  TT [zt [1;2;1]%nat [2;-3]; zt [1;3;2]%nat [1;1;0;2;-5;3]; zt [2;2;1]%nat [1;0;6;-2]]
     [[2;3;2]%nat] [1;1;2;1]%nat None.

(** a batch of three and of one 2 x 2 TT-tensors. *)
Definition s_b3 : tt Zring :=
  TT [zt [3;1;2;2]%nat [1;2;3;4; 0;1;1;0; -1;5;2;2]; zt [3;2;2;1]%nat [1;1;2;3; 4;-4;0;2; 7;1;1;0]]
     [[2;2]%nat] [1;2;1]%nat (Some 3%nat).
Definition s_b1 : tt Zring :=
  TT [zt [1;1;2;1]%nat [3;-2]; zt [1;1;2;1]%nat [1;5]] [[2;2]%nat] [1;1;1]%nat (Some 1%nat).
Definition s_t2 : tt Zring :=
  TT [zt [1;2;1]%nat [3;1]; zt [1;2;1]%nat [-1;2]] [[2;2]%nat] [1;1;1]%nat None.

(** (2*3) x (2*2) and (2*2) x (1*3) TT-matrices. *)
Definition s_m : tt Zring :=
  TT [zt [1;2;2;2]%nat [1;2;0;1;-1;3;2;2]; zt [2;3;2;1]%nat [1;0;2;-1;3;1;1;1;0;4;-2;5]]
     [[2;3];[2;2]]%nat [1;2;1]%nat None.
Definition s_n : tt Zring :=
  TT [zt [1;2;1;1]%nat [2;-1]; zt [1;2;3;1]%nat [1;2;3;0;-1;5]] [[2;2];[1;3]]%nat [1;1;1]%nat None.

(** one-core objects. *)
Definition s_one : tt Zring := TT [zt [1;2;1]%nat [3;1]] [[2]%nat] [1;1]%nat None.

Lemma s_a_wf : wf s_a. Proof. apply wfb_wf; vm_compute; reflexivity. Qed.
Lemma s_b_wf : wf s_b. Proof. apply wfb_wf; vm_compute; reflexivity. Qed.
Lemma s_b3_wf : wf s_b3. Proof. apply wfb_wf; vm_compute; reflexivity. Qed.
Lemma s_b1_wf : wf s_b1. Proof. apply wfb_wf; vm_compute; reflexivity. Qed.
Lemma s_t2_wf : wf s_t2. Proof. apply wfb_wf; vm_compute; reflexivity. Qed.
Lemma s_m_wf : wf s_m. Proof. apply wfb_wf; vm_compute; reflexivity. Qed.
Lemma s_n_wf : wf s_n. Proof. apply wfb_wf; vm_compute; reflexivity. Qed.
Lemma s_one_wf : wf s_one. Proof. apply wfb_wf; vm_compute; reflexivity. Qed.

(** the same objects over the reals. *)
Definition toR (t : tt Zring) : tt Rring :=
  TT (map (fun x : tensor Zring => @Tensor Rring (shape x) (map IZR (data x))) (cores t)) (rshape t) (rks t) (bsz t).
Lemma r_a_wf : wf (toR s_a). Proof. apply wfb_wf; vm_compute; reflexivity. Qed.
Lemma r_b_wf : wf (toR s_b). Proof. apply wfb_wf; vm_compute; reflexivity. Qed.
Lemma r_b3_wf : wf (toR s_b3). Proof. apply wfb_wf; vm_compute; reflexivity. Qed.
Lemma r_b1_wf : wf (toR s_b1). Proof. apply wfb_wf; vm_compute; reflexivity. Qed.
Lemma r_t2_wf : wf (toR s_t2). Proof. apply wfb_wf; vm_compute; reflexivity. Qed.
Lemma r_m_wf : wf (toR s_m). Proof. apply wfb_wf; vm_compute; reflexivity. Qed.
Lemma r_n_wf : wf (toR s_n). Proof. apply wfb_wf; vm_compute; reflexivity. Qed.
Lemma r_one_wf : wf (toR s_one). Proof. apply wfb_wf; vm_compute; reflexivity. Qed.

Ltac conj := repeat match goal with |- _ /\ _ => split end.
Ltac samples := conj; first [exact s_a_wf|exact s_b_wf|exact s_b3_wf|exact s_b1_wf|exact s_t2_wf|exact s_m_wf|exact s_n_wf
  |exact s_one_wf|exact r_a_wf|exact r_b_wf|exact r_b3_wf|exact r_b1_wf|exact r_t2_wf|exact r_m_wf|exact r_n_wf|exact r_one_wf
  |reflexivity|(cbn; lia)|discriminate|idtac].
