(** KernelData.v – the elements of the kernels published with the code, copied from the
    README and from the notebook "p=5 kernel elements.ipynb". *)
From Verif Require Import Base.
Local Open Scope nat_scope.

(** p=5 kernel elements.ipynb:103, a_seq (n = 4, p = 5) *)
Definition a_seq : list (list nat) := [[1; 0; 3; 2]; [1; 0; 3; 2]; [1; 3; 0; 2]; [2; 0; 3; 1]; [0; 3; 1; 2]; [2; 0; 3; 1]; [0; 3; 1; 2]; [0; 2; 1; 3]; [2; 0; 3; 1]; [3; 1; 0; 2]; [2; 0; 3; 1]; [3; 1; 0; 2]; [2; 0; 3; 1]; [1; 3; 0; 2]; [0; 2; 1; 3]; [2; 0; 3; 1]; [0; 3; 1; 2]; [2; 0; 3; 1]; [0; 3; 1; 2]; [2; 0; 3; 1]; [1; 0; 3; 2]; [3; 1; 2; 0]; [3; 1; 0; 2]; [2; 0; 3; 1]; [3; 1; 0; 2]; [2; 0; 3; 1]; [1; 3; 0; 2]; [2; 3; 0; 1]; [2; 3; 0; 1]; [0; 2; 1; 3]; [2; 0; 3; 1]; [0; 3; 1; 2]; [2; 0; 3; 1]; [0; 3; 1; 2]; [2; 0; 3; 1]; [3; 1; 2; 0]; [3; 1; 0; 2]; [2; 0; 3; 1]; [3; 1; 0; 2]; [2; 0; 3; 1]; [3; 1; 2; 0]; [1; 3; 0; 2]; [2; 0; 3; 1]; [0; 3; 1; 2]; [2; 0; 3; 1]; [0; 3; 1; 2]; [0; 2; 1; 3]; [2; 3; 0; 1]; [2; 0; 3; 1]; [1; 3; 2; 0]; [2; 0; 3; 1]; [1; 3; 2; 0]; [2; 0; 3; 1]; [3; 1; 2; 0]].
(** p=5 kernel elements.ipynb:104, b_seq (n = 4, p = 5) *)
Definition b_seq : list (list nat) := [[2; 3; 1; 0]; [2; 0; 3; 1]; [1; 3; 0; 2]; [0; 2; 1; 3]; [2; 0; 3; 1]; [1; 2; 0; 3]; [2; 0; 3; 1]; [1; 2; 0; 3]; [2; 0; 3; 1]; [1; 0; 3; 2]; [3; 1; 2; 0]; [1; 3; 2; 0]; [2; 0; 3; 1]; [1; 3; 2; 0]; [2; 0; 3; 1]; [1; 3; 0; 2]; [0; 2; 1; 3]; [2; 0; 3; 1]; [1; 2; 0; 3]; [2; 0; 3; 1]; [1; 2; 0; 3]; [0; 2; 1; 3]; [2; 0; 3; 1]; [1; 3; 2; 0]; [2; 0; 3; 1]; [1; 3; 2; 0]; [2; 0; 3; 1]; [3; 1; 2; 0]; [1; 0; 3; 2]; [1; 0; 3; 2]; [1; 3; 0; 2]; [2; 0; 3; 1]; [1; 2; 0; 3]; [2; 0; 3; 1]; [1; 2; 0; 3]; [0; 2; 1; 3]; [2; 3; 0; 1]; [2; 0; 3; 1]; [3; 1; 0; 2]; [2; 0; 3; 1]; [3; 1; 0; 2]; [2; 0; 3; 1]; [3; 1; 2; 0]; [1; 3; 0; 2]; [2; 0; 3; 1]; [0; 3; 1; 2]; [2; 0; 3; 1]; [0; 3; 1; 2]; [2; 0; 3; 1]; [3; 1; 2; 0]; [3; 1; 0; 2]; [2; 0; 3; 1]; [3; 1; 0; 2]; [2; 0; 3; 1]; [1; 3; 0; 2]; [2; 3; 0; 1]; [0; 2; 1; 3]; [2; 0; 3; 1]; [1; 0; 2; 3]].
(** p=5 kernel elements.ipynb:105, c_seq (n = 4, p = 5) *)
Definition c_seq : list (list nat) := [[1; 0; 3; 2]; [1; 0; 3; 2]; [1; 3; 0; 2]; [2; 0; 3; 1]; [0; 3; 1; 2]; [2; 0; 3; 1]; [0; 3; 1; 2]; [2; 0; 3; 1]; [3; 1; 2; 0]; [3; 1; 0; 2]; [2; 0; 3; 1]; [3; 1; 0; 2]; [2; 0; 3; 1]; [1; 3; 0; 2]; [0; 2; 1; 3]; [2; 0; 3; 1]; [0; 3; 1; 2]; [2; 0; 3; 1]; [0; 3; 1; 2]; [2; 0; 3; 1]; [3; 1; 2; 0]; [3; 1; 0; 2]; [2; 0; 3; 1]; [3; 1; 0; 2]; [2; 0; 3; 1]; [1; 3; 0; 2]; [0; 2; 1; 3]; [2; 0; 3; 1]; [0; 3; 1; 2]; [2; 0; 3; 1]; [0; 3; 1; 2]; [2; 0; 3; 1]; [3; 1; 2; 0]; [3; 1; 0; 2]; [2; 0; 3; 1]; [3; 1; 0; 2]; [2; 0; 3; 1]; [1; 3; 0; 2]; [0; 2; 1; 3]; [2; 0; 3; 1]; [0; 3; 1; 2]; [2; 0; 3; 1]; [0; 3; 1; 2]; [2; 0; 3; 1]; [3; 1; 2; 0]; [3; 1; 0; 2]; [2; 0; 3; 1]; [3; 1; 0; 2]; [2; 0; 3; 1]; [1; 3; 0; 2]; [0; 2; 1; 3]; [2; 0; 3; 1]; [0; 3; 1; 2]; [2; 0; 3; 1]; [0; 3; 1; 2]; [2; 0; 3; 1]; [3; 1; 2; 0]; [3; 1; 0; 2]; [2; 0; 3; 1]; [3; 1; 0; 2]; [2; 0; 3; 1]; [1; 3; 0; 2]; [2; 3; 0; 1]; [2; 3; 0; 1]; [2; 3; 0; 1]].
(** p=5 kernel elements.ipynb:567-580, d_seq (n = 6, every modulus) *)
Definition d_seq : list (list nat) := [[5; 3; 4; 2; 1; 0]; [5; 4; 3; 1; 0; 2]; [4; 5; 2; 0; 3; 1]; [3; 2; 0; 5; 4; 1]; [5; 2; 4; 3; 1; 0]; [0; 1; 3; 2; 4; 5]; [3; 0; 4; 5; 1; 2]; [4; 1; 0; 5; 2; 3]; [4; 5; 2; 1; 3; 0]; [0; 1; 3; 2; 4; 5]; [3; 4; 0; 1; 5; 2]; [2; 3; 0; 5; 4; 1]; [0; 1; 4; 2; 3; 5]; [3; 0; 4; 1; 5; 2]; [3; 1; 2; 0; 5; 4]; [3; 0; 5; 4; 1; 2]; [4; 1; 0; 5; 3; 2]; [5; 4; 2; 1; 3; 0]; [1; 0; 3; 2; 4; 5]; [3; 4; 1; 0; 5; 2]; [3; 2; 0; 5; 4; 1]; [5; 2; 4; 3; 1; 0]; [4; 0; 1; 3; 2; 5]; [0; 4; 1; 5; 2; 3]; [4; 5; 0; 2; 1; 3]; [2; 0; 1; 4; 3; 5]; [0; 4; 1; 5; 2; 3]; [4; 0; 5; 2; 1; 3]].
(** README.md:43 is this pair of permutations four times (n = 4, p = 2) *)
Definition readme_pair : list (list nat) := [[1; 3; 0; 2]; [2; 0; 3; 1]].
(** README.md:89 (n = 4, p = 5) *)
Definition readme_89 : list (list nat) := [[3; 1; 2; 0]; [1; 0; 3; 2]; [1; 3; 0; 2]; [2; 0; 3; 1]; [0; 3; 1; 2]; [2; 0; 3; 1]; [0; 3; 1; 2]; [2; 0; 3; 1]; [3; 1; 2; 0]; [3; 1; 0; 2]; [2; 0; 3; 1]; [3; 1; 0; 2]; [2; 0; 3; 1]; [1; 3; 0; 2]; [0; 2; 1; 3]; [2; 0; 3; 1]; [0; 3; 1; 2]; [2; 0; 3; 1]; [0; 3; 1; 2]; [2; 0; 3; 1]; [3; 1; 2; 0]; [3; 1; 0; 2]; [2; 0; 3; 1]; [3; 1; 0; 2]; [2; 0; 3; 1]; [1; 3; 0; 2]; [0; 2; 1; 3]; [2; 0; 3; 1]; [0; 3; 1; 2]; [2; 0; 3; 1]; [0; 3; 1; 2]; [2; 0; 3; 1]; [3; 1; 2; 0]; [3; 1; 0; 2]; [2; 0; 3; 1]; [3; 1; 0; 2]; [2; 0; 3; 1]; [1; 3; 0; 2]; [0; 2; 1; 3]; [2; 0; 3; 1]; [0; 3; 1; 2]; [2; 0; 3; 1]; [0; 3; 1; 2]; [2; 0; 3; 1]; [3; 1; 2; 0]; [3; 1; 0; 2]; [2; 0; 3; 1]; [3; 1; 0; 2]; [2; 0; 3; 1]; [1; 3; 0; 2]; [0; 2; 1; 3]; [2; 0; 3; 1]; [0; 3; 1; 2]; [2; 0; 3; 1]; [0; 3; 1; 2]; [2; 0; 3; 1]; [3; 1; 2; 0]; [3; 1; 0; 2]; [2; 0; 3; 1]; [3; 1; 0; 2]; [2; 0; 3; 1]; [1; 3; 0; 2]; [2; 3; 0; 1]; [2; 3; 0; 1]; [0; 2; 1; 3]].
(** README.md:90 (n = 4, p = 5) *)
Definition readme_90 : list (list nat) := [[1; 0; 3; 2]; [1; 0; 3; 2]; [1; 3; 0; 2]; [2; 0; 3; 1]; [1; 2; 0; 3]; [2; 0; 3; 1]; [1; 2; 0; 3]; [2; 0; 3; 1]; [3; 1; 2; 0]; [1; 3; 2; 0]; [2; 0; 3; 1]; [1; 3; 2; 0]; [2; 0; 3; 1]; [1; 3; 0; 2]; [0; 2; 1; 3]; [2; 0; 3; 1]; [1; 2; 0; 3]; [2; 0; 3; 1]; [1; 2; 0; 3]; [2; 0; 3; 1]; [3; 1; 2; 0]; [1; 3; 2; 0]; [2; 0; 3; 1]; [1; 3; 2; 0]; [2; 0; 3; 1]; [1; 3; 0; 2]; [0; 2; 1; 3]; [2; 0; 3; 1]; [1; 2; 0; 3]; [2; 0; 3; 1]; [1; 2; 0; 3]; [2; 0; 3; 1]; [3; 1; 2; 0]; [1; 3; 2; 0]; [2; 0; 3; 1]; [1; 3; 2; 0]; [2; 0; 3; 1]; [1; 3; 0; 2]; [0; 2; 1; 3]; [2; 0; 3; 1]; [1; 2; 0; 3]; [2; 0; 3; 1]; [1; 2; 0; 3]; [2; 0; 3; 1]; [3; 1; 2; 0]; [1; 3; 2; 0]; [2; 0; 3; 1]; [1; 3; 2; 0]; [2; 0; 3; 1]; [1; 3; 0; 2]; [0; 2; 1; 3]; [2; 0; 3; 1]; [1; 2; 0; 3]; [2; 0; 3; 1]; [1; 2; 0; 3]; [2; 0; 3; 1]; [3; 1; 2; 0]; [1; 3; 2; 0]; [2; 0; 3; 1]; [1; 3; 2; 0]; [2; 0; 3; 1]; [1; 3; 0; 2]; [2; 3; 0; 1]; [2; 3; 0; 1]; [2; 3; 0; 1]].
