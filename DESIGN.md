# Formal model of pauxy in Rocq: design

`/repo` (pauxy, python) is read as text; nothing of it is run. `/verif/rocq/theories`
holds a shallow functional model of the parts listed below and machine-checked
theorems about it.

## 1. Conventions

* One topic per group of files: `<Topic>_Model.v` (definitions that mirror the python,
  each citing file:lines and stating its simplifications; no proofs),
  `<Topic>_Spec.v` (independent specification vocabulary, when more than a line),
  `<Topic>_Proofs.v` (lemmas), `<Topic>_Props.v` (property theorems only, each closed by
  `exact lemma`, followed by `Print Assumptions`, and an `Example` showing that a concrete
  non-trivial case meets the hypotheses).
* Python exceptions (IndexError, ZeroDivisionError, KeyError, AssertionError, ...) are
  values of an error type; loops are structural recursions or take explicit fuel and
  return an error when it runs out; the theorems exclude the out-of-fuel case by
  proving that the fuel suffices.
* If the English property is false of the faithful model, the theorem is named
  `..._refuted` (existence of a concrete witness) and the largest part that does hold is
  proved separately. All such findings are listed in section 4.
* A theorem covering only part of a property has suffix `_partial`.

### Numbers

* Python integers: `Z`/`nat` (unbounded, as in python).
* Python floats: exact numbers -- rationals `Q` where code branches on them
  (population control, schedules), elements of an arbitrary field / commutative ring
  (mathcomp) for linear algebra, Coq's reals `R` for exp/cos/arccosh. Rounding is NOT
  modelled, with one exception: where the property is about rounding
  (number of time slices) IEEE binary64 is modelled with Flocq's binary floats, whose arithmetic is that of
  `Coq.Floats.SpecFloat`.
* Complex numbers: pairs of rationals (`Cplx.v`, setoid equality, registered as a ring and
  field), or an abstract field with an involution (conjugation).

### External calls

numpy/scipy/h5py/mpi4py calls appear as functions with the documented semantics
(`argsort(kind='mergesort')` = stable sort, `cumsum`, `where`, ...). Calls whose result
is not determined (qr, svd, random numbers, eigh, directory contents) are universally
quantified: the theorem assumes only the documented relation (e.g. `U*diag(S)*V = A`).
MPI: processes with FIFO channels per (source, destination, tag), non-blocking buffered
sends, blocking receives, arbitrary interleaving.

## 2. Plan per property

| id | model | how it is proved |
|----|-------|------------------|
| C01 | `Comb_Model.comb_loop` (two-cursor loop with IndexError and fuel) on `Q` | loop invariant: cursor `iw` is the first cumulative sum above the tooth; fuel n+target suffices; counts sum to target |
| C02 | same | number of teeth in the half-open interval of walker i, equispaced teeth, floor/ceil counting lemma |
| C03 | same | integral over r replaced by an exact sum over shifted equispaced grids (rational); mean count bound |
| C04 | `Comb_Model.exchange` (zip of clone and kill lists) | refutation by a witness with a count of 3; positive theorem when all counts <= 2 |
| C05 | `MPI_Model` small-step semantics, `Comb_Model.rank_program` | generic theorem for programs "all sends, then receives": progress, termination measure, confluence; instantiated |
| C06 | `PairBranch_Model.pb_loop` on `Q` | induction over the two-pointer loop |
| C07 | same + scatter + `MPI_Model` | permutations: isort inverts sort; per (src,dst) queue counts agree; multiset equality of final walkers |
| C08 | same | loop exit condition with sortedness |
| C09 | same | expectation computed on the two-outcome distribution |
| C10 | `PopControl_Model` | algebra on lists of `Q` over ranks |
| C11 | `Driver_Model` integer arithmetic | `lia`/div-mod; `setup_parallel` variant refuted if its total is computed before the fix-up |
| C12 | `Driver_Model.seed` | injectivity |
| C13 | `Buffer_Model`: attributes as tagged values, buffer of complex numbers, running offset | induction over the attribute list; type-changing assignments refuted |
| C14 | `FieldConfig_Model`: arrays + step/block cursor, IndexError explicit | invariant by induction over operation sequences; overrun characterised |
| C15 | `PropStack_Model` with mathcomp matrices over any field | invariant by induction over updates |
| C16 | same | comparison of reset state with fresh state; leftover `counter` refuted for mid-bin reset |
| C17 | `StackSize_Model.update_stack` | termination + nearest-divisor specification |
| C18 | `Restart_Model`: file as finite map, init/write/read operations | round-trip; refuted for read_file = write_file and partial for missing datasets |
| C19 | `H5Names_Model` names as zero padded strings | injectivity + order embedding below 10^9; averaging window >= 2 refuted |
| C20 | `EstName_Model` | fuelled loop; terminates for dot-free names; refuted for dotted names |
| C21 | `Mixed_Model` | linearity of reductions, permutation invariance |
| C22 | `Mixed_Model` + driver | induction over steps; step-0 leak |
| C23 | `Driver_Model.run` event trace | induction over steps |
| C24 | `Input_Model` | case analysis / induction over alias list |
| C25 | `Input_Model` nested dictionaries | structural induction |
| C26 | `Fcidump_Model` tensors as functions, records as lists | unique representative lemma, last-write-wins fold |
| C27 | `Qmcpack_Model` coo triples, chunks | induction over chunks |
| C28 | `Wfn_Model` | list round-trip; refuted for unequal spin numbers in the reader |
| C29 | `CI_Model` + `Fock_Spec` (creation/annihilation on occupation lists) | operator algebra on determinants |
| C30 | `CI_Model.balls` | induction |
| C31 | `Lattice_Model` | div/mod arithmetic |
| C32 | `Lattice_Model.kinetic` | arithmetic; pinning variant refuted for width 2 |
| C33 | `UEG_Model` | injectivity of mixed radix index inside the sphere; twist refuted |
| C34 | `UEG_Model` lists | filter soundness/completeness |
| C35-C36 | mathcomp matrices over a field | Sherman-Morrison, matrix determinant lemma |
| C37-C40 | `Coq.Reals` | exp/cosh identities, order reasoning |
| C41-C43 | mathcomp matrices | ring of matrices, determinants |
| C44, C45 | `LEnergy_Model`, mathcomp bigops | exchange of sums, traces |
| C46, C57 | `Reorder_Model`, `Ekt_Model`; any algebra with the anticommutation relations | commutator identities; Fock space as an instance |
| C56 | `Freeze_Model` | bilinear forms split into core and active blocks |
| C47 | `Chol_Model`, mathcomp matrices over a numClosedField | residual stays positive (Schur complement) and vanishes on pivot rows; simulation between variants |
| C48 | `Chol_Model.find_shell` | search specification |
| C49 | `Taylor_Model`, mathcomp matrices | induction on the order; polynomial with finitely many roots for the refutation |
| C50 | `ChemPot_Model` over real functions | bracket invariant, halving of the interval; fuel for the unbounded widening |
| C51 | `BackProp_Model`, mathcomp matrices; QR as an argument | induction over the path, factors of positive determinant; Gram-Schmidt shows that an admissible QR exists |
| C52 | `BPEst_Model`, buffers as lists over any type with the operations | layout of slices; induction over the steps of a run |
| C53 | `HalfRot_Model`, writes of all processes in any order | arithmetic; every address is written once |
| C54 | `MultiDet_Model` over a closed field: determinants with coefficients, stores of the walker, pairs of determinants | matrix elements by columns replaced; witnesses + sesquilinear identities |
| C55 | `Analysis_Model` over `Q` lists, errors kept as squares | sums over lags of a centred series vanish; blocks and groups by induction; witnesses by computation |
| C58 | `TimeGrid_Model`, Flocq's `binary_float 53 1024` (SpecFloat arithmetic) | correct rounding; factors of a double that are multiples of one are doubles; witnesses by computation |
| C60 | `LEnergy_Model.local_energy_stochastic` | mean over all sign matrices; orthogonality of distinct signs |
| C61 | `UEGEnergy_Model.local_energy_ueg` over a closed field and an abelian group of momenta; lists of shifted plane waves | sums over lists = conditional sums over pairs; one lemma turns a sum over transfers into the interaction |
| C62 | `UEGEnergy_Model.fock_ueg`, `fock_generic`, `fock_hubbard`; the derivative of a quadratic function is unique | expansion of the Wick energy along a line; matrices compared entry by entry |
| C63 | `Phonon_Model` over Coquelicot's complex numbers; value, gradient and Laplacian of lists of oscillators; steps of the boson walker | partial derivatives by auto_derive, sums over sites and permutations by induction; uniqueness of derivatives |
| C64 | `HHEnergy_Model` over a closed field: energies of one and of many coherent states | Wick energies and overlaps of pairs; completing the square; reindexing by permutations; witnesses |
| C65 | `Kspace_Model` over a closed field: numpy shapes, fft2 as sums of roots of unity, kinetic_kspace, kinetic_real, ek, transform_matrix | plane waves as eigenvectors of the hopping matrix of C31; functions of a matrix by their eigenvectors | orthogonality of characters; inversion; expansion in plane waves |
| C66 | `THF_Model` over a closed field: both loops of MeanField and the end of OneBody; expm, Fock matrix, density matrix and root search as arguments | induction over the iterations; triangle inequality of the Frobenius distance; one site as witness |
| C67 | `LowRank_Model` over a closed field: update_low_rank, construction and reset of the stack; pivoted QR as an argument, slices of any width by zero padding | induction over the path; the pivoting rule bounds what is cut off; every matrix of every shape has such a factorisation (`PivotQR_Proofs`); scales 1, x, 1 as witness |
| C68 | `ITCF_Model` over a closed field: both loops, increments of both kinds, accumulation, reduction and output; back propagation is that of `BackProp_Model` | induction over the path with the invariant that the equal-time function of a slice times the product so far is the displaced function; spans of determinants for the stabilised trial; 2x2 shear as witness |
| C69 | `MFShift_Model` over a closed field: shifts, one-body matrices, potentials, biases and core energies of the zero-temperature and thermal continuous propagators, and `two_body_propagator` | operators in any algebra with the anticommutation relations (C46 gives the unshifted Hamiltonians); completing the square; formal series in the square root of dt with non-commuting coefficients; a discrete field distribution with the moments of the normal one; the values of shifts and biases as expectation values of the fields' operators (`C69_shift`, `C69_multi_det_bias`) |
| C70 | `Trial_Model` over a closed field: `diagonalise_sorted`, `free_electron`, `free_electron_ghf`, `hartree_fock`, `find_uhf_wfn` with its loops, `spin_square`, `checkerboard`; `eigh`, `argsort` and the random starts are arguments | the variational principle for sums of eigenvalues (`ground_orbitals`), the spectral theorem for the existence of `eigh` (`Spectral_Proofs`), an iteration of fields defined without the code's loop (`Trial_Spec.converges`), Wick's theorem for the energy and the spin |
| C71 | `PWFFT_Model` over a closed field: `sp_energies`, `pw_system` with its lookup table, `convolve` by discrete transforms of zero-padded arrays, `transfers` (scatter, convolve, flip, gather), `exchange_fft`, `local_energy_pw_fft`, `local_energy_no_cython`, the call in mixed.py; the roots of unity, `next_fast_len` and whether numpy takes ragged lists are arguments | the sphere of integer vectors (`PWFFT_Spec.sphere`), convolution as a double sum over coordinates, Wick's theorem with the momentum-conserving interaction of C61 |
| C72 | `PWProp_Model` on top of `PWFFT_Model`: `fftconvolve_valid`, `mod_one_body`, `construct_force_bias`, `apply_V`, `mask`, `series`, `shift_fields`, `apply_two_body_propagator`; the fields are an argument, columns are handled one at a time, the counter of rescaled biases is dropped | density operators of plane waves (`PWProp_Spec.density`, `vplus`, `vminus`), Taylor polynomials of matrices (`Taylor_Spec`), fermion operators (`Reorder_Spec`) |
| C73 | `BoseFermi_Model`: `distribute`, `balls_in_boxes`, `sectors`, `hel`, `hb`, `rho`, `boson`, `htot`, `bose_fermi` (occs=None; eigensolver and printed averages not modelled), with `CI_Model.get_hmatel` and `dets` | phonon and fermion operators on occupation numbers (`BoseFermi_Spec.annih_ph`, `creat_ph`, `holstein`; `Fock_Spec`), the commutation relation is proved |
| C74 | `KPoint_Model`: `loop` (counters ik, lj), `offsets_from`, `eri`, `block`, `write_two_k`, `write_one_k`, `write_fcidump_kpoint`, `get_kpoint_chol`, on top of `Fcidump_Model`; arrays other than nmo_pk are total functions, the hdf5 file a partial function of the number of L | integrals between Bloch orbitals with momentum conservation (`KPoint_Spec.locate`, `transfer`, `bloch_integral`, `opposite_pairs`), `Fcidump_Spec.has_sym` |
| C75 | `Rediag_Model`: `upper_pairs`, `recompute_ortho`, `pair_entry`, `recompute_general`, on top of `CI_Model.get_hmatel` and `Ortho_Model.gab_mod_ovlp`; eigh is an argument | the variational principle: `Rediag_Spec.ground` on Fock space (`Fock_Spec.hamiltonian`), `lowest` for the generalised problem; `eigh_ok`, `eigh2_ok` say what is assumed of LAPACK (met for all matrices, `C75_eigh`) |
| C76 | `PHMSD_Model`: `fetch`, `assign`, `fill_dets`, `from_phmsd`; `MultiDet_Model.overlap_direct` | Slater determinants as products of creation operators on the vacuum (`PHMSD_Spec.slater`, on top of `Fock_Spec.create`), `trial_state`, `Rediag_Spec.inner`; overlaps are determinants of orbital overlaps by expansion along a row |
| C77 | `RegInv_Model`: `damped`, `regularise`; svd is an argument | damped least squares: `RegInv_Spec.cost`, `minimiser`, `normal_mx`; `svd_of` says what is assumed of LAPACK (met for all square matrices, `C77_svd`, which also serves C43) |
| C78 | `Ratio_Model.average_tau` with `mean`, `cov`, `err` | `Ratio_Spec`: `standard_error` of a mean, `quotient_error` by the delta method |
| C79 | `OneBody_Model.analyse_one_body`, `analyse_split` with `einsum`, `np_mean`, `np_sem` | `OneBody_Spec`: `contraction` with the `mean_matrix`; `Ratio_Spec.standard_error` |
| C80 | `HoleSpin_Model.average_correlation`, with `np_mean` and `np_sem` of C79 | `HoleSpin_Spec`: `hole_at`, `spin_at`, `particles`, `estimates`; `Ratio_Spec.standard_error` |
| C81 | `Rotated_Model`: `inverse_overlap`, `rotated_greens_function` | `Rotated_Spec.half_rotated`: dual to the trial, rows in the span of the walker |
| C82 | `RealUEG_Model`: `set_pair`, `set_pairs`, `compute_real_transformation`, `eri_8` (eri_4 is an argument) | `RealUEG_Spec`: `unitary`, `real_orbitals`, `inversion_symmetric`, `in_basis`, `plane_wave_eri`, `eightfold` |
| C83 | `OrthoAO_Model`: `kept`, `columns`, `scaled`, `get_orthoAO`, `zeroed`, `get_ortho_ao_mod`, `molecular_orbitals_rhf`; eigh is an argument | `OrthoAO_Spec`: `eigen_of` (what is assumed of eigh), `orthonormal` in a metric; the Roothaan equation |
| C84 | `EktIpea_Model`: `screen`, `spin_average`, `np_eigh` (reads the lower triangle), `koopmans`, `analyse_ekt_ipea`; the averages, their errors and eigh are arguments | `EktIpea_Spec`: `significant`, `diagonalised_by`, `generalised_eigenvalues` |
| C59 | `PropStack_Model.walker_run` | telescoping determinant ratios; refuted for the second path |

## 3. Trusted base

* Coq 8.16.1 kernel (and `vm_compute` where used), the statement files, and the reading
  of the python source recorded in the model comments.
* Axioms: see section 5 (output of `Print Assumptions`).
* Not modelled: floating point rounding (except C58), MPI implementation internals,
  HDF5 internals, numpy/scipy numerics, timing/printing, pyscf.
* The citations at the head of each `_Model.v` and beside its definitions are the complete list of the code that is
  modelled. No part of these modules is: `trial_wavefunction/multi_determinant.py`, `trial_wavefunction/lang_firsov.py`,
  `walkers/multi_coherent.py`, `qmc/comm.py`, `analysis/correlation.py`, `utils/testing.py`, `_version.py`, and the
  factories in `propagation/utils.py`, `thermal_propagation/utils.py`, `systems/utils.py`, `trial_density_matrices/utils.py`.
  Nor are, in modules that are modelled otherwise: the variational optimisation in `coherent_state.py`, `reortho_excite` of `single_det.py`, `update_greens_function_ghf` and `back_propagate_single_ghf` in
  `propagation/hubbard.py` and `propagation/hubbard_holstein.py`, `read_input` and `get_driver` of `qmc/calc.py`, `eri_4` of
  `systems/ueg.py`, `read_qmcpack_dense` and `sparse_to_dense` of `utils/hamiltonian_converter.py`, the calls of pyscf in
  `utils/from_pyscf.py`, the ascii wavefunction files of `utils/io.py`, `serialise` of `utils/misc.py`, `molecular_orbitals_uhf`
  of `utils/linalg.py`, and the `unit_test` functions.

## 4. Findings

Places where the stated property is false of the code. Each has a `_refuted` theorem with a
concrete witness, and next to it the theorem giving the scope in which the property holds.

- C04: comb population control can lose a walker's copies: a walker drawn three or more times is
  not always stored that many times (handler.py:256-338).
- C11: `calc.setup_parallel` reports a total of 0 walkers when there are fewer walkers than
  processes.
- C12: the per-rank seeds are distinct, but two runs with consecutive base seeds share streams.
- C13: `FieldConfig.update` stores the integer 0 in `tot_wfac` when the cosine factor vanishes
  (stack.py:71). Such a walker has weight zero, so it is what population control overwrites, and
  `set_buffer` then truncates the arriving complex factor with `int(...real)`. A walker with both
  nested objects set would pack one and unpack two.
- C14: walkers of negligible weight are not propagated (afqmc.py:232) and keep a lagging step
  counter. When that is the first walker, back propagation is not triggered (back_propagation.py:145)
  and the other walkers overrun their windows: IndexError. The same overrun happens for every run
  longer than the window when `nsplit` does not divide the number of steps. Discrete propagators use
  `push`, which never stores weight factors, so `restore_weights="full"` divides 0 by 0.
- C21: with `average_gf` the reported energies are nan; `two_rdm` without `one_rdm` raises
  UnboundLocalError.
- C22: with verbose=False the zeroth measurement is added to the first block.
- C23: the weight cap is relative to the total of the last population control, cuts every walker
  for populations below ten, and turns a negative weight positive; after equilibration the energy
  shift is the hybrid one whatever the `hybrid` flag.

- C15: `PropagatorStack.update` (stack.py:287-297, discrete constrained propagator) drops the trial
  slices of a bin in progress. It is read only at ends of bins, because the stabilisation frequency
  is always reset to the stack size (C17).
- C16: `PropagatorStack.reset` leaves `counter`, so a reset inside a bin makes the next path lose a
  slice. Runs reset only after complete paths.
- C59: `Walkers.reset` (handler.py:424-430) does not reset `M0` (nor `stack.ovlp` and `stack.G` in
  the low-rank case), so every thermal path after the first is reweighted relative to the previous
  path of the same walker instead of the trial.
- C18: with `write_freq > 0` the restart file is created (truncated, zero filled) before the read
  file is read (handler.py:147-161), so resuming from the file one writes to gives walkers of
  weight zero. A run that stops before its first write leaves such a file too, and reading it raises
  no error. Everything outside weight, phase, overlap and determinant (e.g. `hybrid_energy`, which
  the next weight update averages with) is not stored.
- C19: `H5EstimatorHelper.increment` computes `(index+1)//nav`, so with an averaging window of two
  or more the index never leaves 0 and the second block raises.
- C20: by default (`overwrite` true) an existing file is truncated, as is an explicit `filename`;
  with `overwrite` false a base name containing a dot either never stops searching or raises
  ValueError.
- C24: an option given explicitly as null is treated as absent: the search goes on to the aliases and
  then the default (io.py `get_input_value`).
- C25: `merge_dicts` behaves as stated; its caller `write_input` (io.py:604) raises a conflict as soon
  as the options give another value for one of its built-in defaults (e.g. `qmc.dt`).
- C26: `abs(x.imag > 1e-12)` is the absolute value of a comparison, so the real FCIDUMP format drops
  negative imaginary parts without an error. The parenthesised complex format cannot be read back:
  `ast` is not imported (NameError), or ValueError when the real part is negative.
- C28: `read_qmcpack_nomsd_hdf5` reads the alpha orbitals of determinant i from block i instead of
  block 2i (io.py:363-366 computes `ix` and does not use it), so an unrestricted expansion with several
  determinants gets wrong orbitals, or ValueError for unequal spins. Both assertions compare with
  `nelec[0]`, so unequal spins raise when `nelec` is given. A file without beta electrons raises
  IndexError in `orbs_from_dset`. Writing zeroes small entries of the caller's array.
- C29: `slater_condon1` does not compare the spins of the two orbitals (and `slater_condon2` only one of
  the two pairs), so the element between determinants of different spin projection is nonzero.
  `simple_fci` never asks for those. For complex integrals the element is that of the transposed
  matrix.
- C31: `fft_wavefunction` reshapes to (nx, ny), so row i is site (i//ny, i%ny), while `decode_basis`
  says (i%nx, i//nx). `kinetic_kspace` is therefore right only for square lattices and chains.
- C32: in a periodic direction of two sites the bond is added twice (-2t, or 0 when antiperiodic).
  `kinetic_pinning` and `kinetic_pinning_alt` read a second coordinate that chains do not have.
- C33: `imax_sq` is the norm of the last plane wave of the energy order. With a twist that need not be
  the largest norm, and the constructor's own assertion fails (witness: twist (1/2,0,0), cutoff 6).
- C34: `qvecs[1:]` is meant to drop q = 0 but with a twist drops the lowest vector of the twisted order:
  q = 0 stays (infinite Coulomb kernel) and a nonzero transfer is lost. `nlimit = nup` limits the lists of
  both spins.
- C36: with the charge decomposition `probs` contains `aux_wfac` when `update_overlap` multiplies it into
  `walker.ot`, so the stored overlap carries the product of the field factors, and the next
  `kinetic_importance_sampling` divides them out of the weight again. `calc_overlap` slices both spins at
  `ndown`, so it is not the overlap when nup differs from ndown (it sets the walker's first `ot`). With a
  log shift `calc_otrial` multiplies by exp(+shift) and `calc_overlap` by exp(-shift). For ndown = 0 the
  sweep multiplies an nup x nup array with an empty row and raises.
- C37: the constrained thermal propagator with charge decomposition computes its ratios without `aux_wfac`
  (thermal_propagation/hubbard.py:117-135), so it samples a different interaction whenever U is not zero.
  With the spin decomposition and U < 0 `gamma` is nan.
- C38: `two_body_direct` has a factor 0.5 in `pp`, `pm` and again in `fb_fac`: the mean weight is too small
  by 2 for every site. With an imaginary coupling the real parts are cosines and a further cos^2 remains.
- C39: `update_weight_local_energy` stores the unclipped local energy, which enters the next exponent, and
  subtracts `eshift` inside the factor one half. `cmath.phase(0)` is 0, so a vanishing overlap is kept.
  Both updates refer to an undefined `ot_new` after an overflow; for the hybrid update `cmath.exp` has
  already raised OverflowError.
- C40: `fb_bound` of the thermal plane-wave propagator only selects which components are rescaled; they are
  rescaled to modulus one. For a bound below one components between the bound and one grow.
- C41: `MultiGHFWalker.reortho` computes `detR` but has no return statement, so free projection raises
  TypeError in `cmath.polar`. `MultiDetWalker.greens_function` skips determinants whose overlap is under
  1e-16 without normalising: an overlap can cross the threshold by re-orthogonalisation alone, and a
  skipped determinant keeps the Green's function and weight of an earlier step. With a `detR_shift` ot is
  the overlap times exp(shift).
- C42: `gab_spin` with nb = 0 returns names it never bound (UnboundLocalError). `gab` and
  `gab_multi_det_full` return the transpose of `gab_mod` and `gab_mod_ovlp`. Outside the model:
  `gab_multi_det` stores square matrices in an array of the shape of A and sizes the overlaps with
  A.shape[1]; `gab_multi_ghf_full` calls a function that does not exist.
- C43: `inverse_greens_function` returns the Hermitian conjugate of 1 + A (it returns
  V3^dagger D3 U3^dagger where U3 D3 V3 is 1 + A); the QR variant is right. `one_rdm_stable` with
  num_slices = 0 behaves as with one slice. `compute_left` takes `.diagonal()` of products that
  are diagonal only for a diagonal trial. In `greens_function_qr_strat` and `one_rdm_stable` the
  splitting of scales tests freshly zeroed vectors, so no scale is ever treated as large; the
  result is exact all the same.
- C44: a walker with control_variate and without exact_eri drops its half-rotated vectors and indexes None
  (TypeError); pno needs both exact_eri and control_variate (AssertionError). The reference energies of the
  pair-orbital and control-variate routines belong to the walker's initial state while C0 is the trial: the
  exact error term is in C44_pno. Outside the model: `MultiSlater.recompute_ci_coeffs` calls
  `self.rchol(i)`, which does not exist.
- C45: with the symmetric option `local_energy_hubbard` computes -U/2 (tr G_up + tr G_down) and overwrites it
  on the next line.
- C46: `construct_h1e_mod` of the generic system subtracts 1/2 sum L L^T; reordering needs 1/2 sum L L. The two
  agree for symmetric vectors only, and nothing checks symmetry. With the symmetric Hubbard option nothing is
  subtracted, so the propagated operator is H + (U/2) N.
- C47: `modified_cholesky` reserves int(cmax*sqrt(n)) vectors, but a positive n x n matrix may need n (and the
  loop computes one more than it returns): IndexError for the identity from n = cmax^2 on. `chunked_cholesky`
  with verbose=True raises TypeError when printing (`"..."%nchol_max` without a placeholder), and
  `dump_pauxy` passes verbose=True by default. `chunked_cholesky_outcore` writes whole chunks only, so the
  last `nchol mod chunk_size` vectors are missing; with chunk size one the first vector is overwritten.
  `cholesky` returns None for systems that fit in memory, the in-core result only for those that do not, and the
  out-of-core one only with verbose.
- C49: `apply_exponential` documents its result as Exp(VHS) phi; it is the Taylor polynomial, which is not unitary
  for antihermitian VHS at any order.
- C50: `find_chemical_potential` loses a root at an end of the interval it tries (mu = -1, 1, -3, 3, ...): the product
  of signs is then zero, which ends the widening but brackets nothing, and None is returned whatever max_it is. For
  a target of 0 or of all orbitals the widening loop never ends. `analysis.thermal.find_chem_pot` never updates
  `rmin`, so it returns the root of the narrowest window whose residual beats that of the first window with a root, not of the
  best fit; a window without a root resets the result; too few points raise UnboundLocalError.
- C51: `construct_propagator_matrix_generic` and the plane-wave version call `exponentiate_matrix` with its default
  order 6, whatever `expansion_order` the forward steps use. The Hubbard version leaves out exp(-dt U/2), always
  uses the spin decomposition, and serves the continuous Hubbard propagators too, where int(xi.real) of a Gaussian
  field indexes a table of two rows. `construct_propagator_matrix_ghf` reads `system.auxf`, which no system has.
  `back_propagate_single` leaves out dt. With nstblz = 0 the second step divides by zero. `two_body_direct` and
  free projection store no fields at all, so nothing is ever back propagated there.
- C52: one-body and two-body density matrices are written without division by the weight (the analysis divides).
  With the Fock matrices but without one_rdm the slice written as the particle matrix is the start of the density
  matrix; two_rdm given as false shifts the slices in the same way. "structure_factor" is compared by identity, so
  the string from an input file is taken for a full two-body matrix (ValueError). GHF walkers stop the run. The
  last measurement is at tau_bp only when nsplit divides nmax.
- C54: `MultiSlater.contract_one_body` conjugates both coefficients, in the numerator and in the denominator: the value is
  right for coefficients of one phase only (1 and 2i: -1/3 instead of 1/5; 1 and i: nan). Its other branch, and
  `variational_energy_multi_det`, raise when two determinants are orthogonal. `variational_energy_ortho_det` counts
  the lower triangle twice instead of adding the conjugate: an imaginary part is left over. Walkers drop determinants
  that are orthogonal to them, whose matrix elements with a one-body operator do not vanish. The energy from the
  largest determinant is multiplied and divided by the overlap of the first one: nan when that is zero.
- C55: `average_rdm` divides the variance of the retained samples by the number of all samples. `average_fp` uses the
  number of iterations as the number of samples in the covariance term, so the error can be nan.
  `average_ratio` leaves the imaginary parts out of the error. `analyse_back_prop` takes `min(1, ...)`, so every start
  time drops exactly one row; it reads `energies`, but the estimator writes `energies_<n>`. `analyse_estimates` drops
  one block too many when the zeroth row was not written (verbose = False), raises for several sets of parameters and
  for free projection. `reblock_by_autocorr` raises for series whose correlation time rounds to zero (all series of two
  or three samples), and when the shortest prefix it looks at is constant; its error uses n instead of n - 1.
- C56: `freeze_core` reshapes the vectors to (nchol, nbasis, nbasis) and passes them to a routine that expects
  (nbasis^2, nchol): ValueError unless nchol = nbasis^2, and then the "energy" is a matrix, which the default
  verbose printing cannot format. The core exchange is the transpose of what is needed (equal for symmetric
  vectors). Outside the model: `generate_integrals` keeps only h1e[0] (the two spins agree) and slices an
  unused identity.
- C57: `ekt_1h_fock_opt` and `ekt_1p_fock_opt` treat the spins differently: 2 rdm1a Xb instead of
  rdm1a Xb + rdm1b Xa, and rdm1a c^T rdm1b instead of rdm1b c^T rdm1b in the exchange of the hole matrix. A
  single electron of down spin interacts with itself. `gen_fock_1h` and `gen_fock_1p` are right and unused.
- C58: the driver uses round(beta/dt) slices, `OneBody` int(beta/dt). For decimal inputs the trial often has one slice
  less (beta = 0.3, dt = 0.05: 5 instead of 6), and then the last slice of the first path raises IndexError in the
  walker's stack. `num_bins = int(beta/(stack_size*dt))` has the same defect where nothing raises: for beta = 0.9,
  dt = 0.1 and a stack of 3 the density matrix and chemical potential of the trial belong to beta = 0.6.
  `QMCOpts.neqlb` is cut off likewise, and computed before a scaled time step is converted.
- C60: the stochastic routine indexes rchol[0] and rchol[1] as spin blocks, while its callers pass one stacked
  array (ValueError); with control_variate the vectors are None and `system.rchol_vecs` does not exist
  (AttributeError); the default number of samples is zero (ZeroDivisionError).
- Not a property here: with `lowrank` the thermal plane-wave propagator uses the phaseless update for free
  projection as well (planewave.py:64-66).
- Not a property here: `ITCF.setup_output` (itcf.py:144) passes a shape and a dtype to
  `H5EstimatorHelper`, which takes neither: TypeError.
- Not a property here: `greens_function_qr_strat` tests `abs(Db[i,i])` of a matrix of zeros
  (thermal.py:518-521), so the splitting of large and small scales never happens.
- C61: `UEG.__init__` builds the lists of k+q and k-q for the first `nup` plane waves only and uses them for both spins.
  With fewer up than down electrons the rows of the other down electrons are left out of the potential energy
  (`C61_refuted`; `C61_exact` says what is computed).
- C62: `build_K` and `build_K_opt` contract with G[j-q, k] where the derivative of the energy has G[k, j-q]: the Fock
  matrix has the exchange part of the transposed density matrix (`C62_refuted` for a hermitian matrix that is not real).
- C62: the python `build_J` is the transpose of `build_J_opt` (`C62_build_J`).
- C62: `fock_generic` contracts `hs_pot` with three axes, but `Generic` stores the Cholesky vectors as an array with
  two, so einsum raises ValueError on every call (`C62_generic_raises`); the sparse branch adds the direct potential to
  the shifted one-body Hamiltonian and has no exchange (`C62_generic_sparse`, `C62_generic_sparse_refuted`).

- C55: a negative start time keeps only the last rows (`C55_equilibration_negative_refuted`).
- C63: `CoherentState.gradient` does not conjugate the coefficients of the permutations, while `value` and `laplacian`
  do (`C63_sym_gradient_refuted`; the coefficients are real wherever the class sets them).
- C63: the Sorella form of the kinetic energy in `boson_importance_sampling` sums the squares of psi''/psi instead of
  psi''/psi (`C63_sorella_refuted`).
- C63: `HirschDMC.acceptance` takes dt for the variance of a step, which is dt/m (`C63_acceptance_refuted`). It is never
  called.
- Not a property here: `HirschDMC.__init__` of `propagation/hubbard_holstein.py` reads the undefined name `inputs`:
  NameError whenever it is constructed. `hessian` in `coherent_state.py:121-123` reads the undefined
  `restricted_shift`.
- C64: `local_energy_hubbard_holstein_momentum` asserts an identity that holds for m w0 = 1 only
  (`C64_momentum_raises`), and fails without the Lang-Firsov transformation (`C64_momentum_off_refuted`). It is never
  called.
- C64: `symmetric` has no effect on the energy (`C64_symmetric_refuted`).
- C64: `CoherentState.calculate_energy` multiplies coefficients without conjugation (`C64_multi_refuted`), and in the
  symmetrised case takes the energy of the given state for all permutations of the sites, which need not be symmetries
  of the lattice (`C64_perm_refuted`).
- C65: with `ffts` the propagator calls `kinetic_kspace` with the two matrices `bt2` (line 159) and not with `btk`: the
  step always raises a ValueError (`C65_ffts_refuted`).
- C65: `fft_wavefunction` reshapes to (nx, ny), although sites are numbered x + nx y: wrong on rectangles
  (`C65_rectangle_refuted`). `eks` has an extra -2t when nx = 1 (`C65_one_column_refuted`) and ignores open boundaries
  (`C65_open_refuted`); twists and pinning fields are ignored in the same way.
- C66: `thermal_hartree_fock` computes P with `mu_old` and returns the next `mu` (`C66_run`, `C66_number_refuted`); it
  ignores `_alt_convention`, which `find_chemical_potential` and `OneBody` respect (`C66_alt_refuted`); a given `mu`
  replaces the target by the number of electrons of the one-body density matrix (`C66_target_refuted`); alpha = 1 passes
  as converged (`C66_alpha_refuted`); with `verbose` the assertion in `entropy` fails for different spins
  (`C66_verbose_refuted`).
- C66: `OneBody.G` and `MeanField.G` are Green's functions of one time slice and not of the whole path
  (`C66_green_refuted`). The thermal propagators take their mean-field shift from it.
- C67: `update_low_rank` counts the left scales above the threshold and then takes that many from the front
  (`Dl[:mL]`). `Dl` is the diagonal of the trial in the order of the basis and is never sorted, so orbitals beyond the
  count are left empty even if their scale is large (`C67_rows`, `C67_order_refuted`).
- C67: `Walkers.reset` calls `stack.reset`, `set_all` and `greens_function`; with low rank none of them writes `stack.G`
  or `stack.ovlp`. The next path starts with the Green's function of the last one and its first weight factor divides
  by the last weight (`C67_reset`, `C67_reset_refuted`).
- C68: `calculate_spgf_stable` recomputes the equal-time function of the next slice with `psi_Ls[len(psi_Ls)-ic-1]`
  (itcf.py:292), the trial taken back to slice `ic`, and the right-hand determinant at slice `ic+1`. From the second
  slice on the functions are wrong unless the propagators keep the trial's span (`C68_slices_refuted`, `C68_eigen`).
- C68: `increment_tau_uhf_stable` multiplies the updated lesser function of the first spin into that of the second
  (itcf.py:490), so the latter is never that of the second spin (`C68_stable_partial`, `C68_down_refuted`).
- C68: `increment_tau_ghf_stable` multiplies the lesser function from the wrong side (itcf.py:513,
  `C68_ghf_lesser_refuted`).
- C68: `calculate_spgf_unstable` reads `it`, which is not defined (itcf.py:219): NameError for every walker
  (`C68_unstable_refuted`).
- C68, not modelled: the estimator cannot run as wired. The handler passes a file name where `create_group` is called
  and a keyword `nsteps` that `print_step` does not take; `to_file` reads an undefined `mode`; the walkers' stacks have
  no `wfac` and `get_block`; `initial_greens_function_ghf` passes determinants of the wrong number to `gab_multi_ghf`
  and subtracts a tuple.
- C69: `HubbardContinuousSpin` has the potential of a field with the opposite sign of its mean-field shift and shifts the
  one-body part of both spins alike (hubbard.py:455-482). The step's Hamiltonian is off by
  `-2U sum_i (G_up,ii - G_dn,ii) n_i,up` (`C69_spin`, `C69_spin_refuted`), and the force bias does not remove the
  fluctuations of the weight (`C69_bias_spin_refuted`).
- C69: the sparse fast force bias uses the rotated vectors of the first spin for both spins (generic.py:147-148):
  `C69_fast_sparse_refuted`, and ValueError when the numbers of electrons differ (`C69_fast_sparse_raises`).
- C69: the thermal generic propagator contracts a two-dimensional `hs_pot` with three indices unless the system is
  sparse (thermal_propagation/generic.py:88-94), so dense systems raise ValueError (`C69_thermal_dense_refuted`).
- C69: the thermal plane-wave propagator computes a mean-field shift and uses it in the factor of a field, but neither in
  the one-body matrices nor in the core energy (`C69_thermal_planewave`, `_refuted`; harmless for diagonal density
  matrices, `_partial`).
- C69, not modelled: at zero temperature `mf_const_fac` is computed but never multiplied into a weight
  (continuous.py:57), and it drops the imaginary part of the core energy; the plane-wave core energy is zero, also with
  a non-zero `ecore`.
- C70: the UHF convergence test compares the density of a step with that of the step before, not with the field that
  generated it (uhf.py:219-230), so runs that alternate are accepted at determinants that are not self-consistent:
  `C70_uhf_refuted`. What does hold is the bound on the residual in `C70_uhf`.
- C70: `find_uhf_wfn` returns the densities of the last attempt with the determinant of the best (uhf.py:169-170):
  `C70_nav_refuted`. If no attempt converges the handler uses `warnings`, which is not imported (NameError), or `min` of
  an empty list has raised before (ValueError with `verbose`): `C70_uhf`.
- C70: `<S^2>` uses the transpose instead of the adjoint (uhf.py:163): right for real orbitals, `C70_spin_refuted`.
- C70: the list `reference` of free electrons is used for both spins (free_electron.py:50-53), so open shells raise:
  `C70_reference_refuted`.
- C70: orbitals of a GHF calculation count as spin up only if *every* component exceeds the threshold
  (free_electron.py:37-44): one node and the assignment fails, `C70_ghf_refuted`.
- C70: an excitation of UHF orbitals indexes the spin axis away (hartree_fock.py:70): always an exception,
  `C70_excite_refuted`.
- C70: the checkerboard decodes sites on a 4x4 lattice whatever the lattice (uhf.py:200): `C70_checkerboard_refuted`,
  `C70_checkerboard_raises`.
- C71: `mixed.local_energy` calls `local_energy_pw_fft` without the positional argument `trial` (mixed.py:405-410,
  estimators/pw_fft.py:18): every energy of a `PW_FFT` system through the mixed estimator is a TypeError,
  `C71_dispatch_refuted`.
- C71: with a cutoff below one half a single plane wave is left, `numpy.squeeze` removes its axis and the sum over
  axis 1 raises: `C71_system_raises`.
- C71: `CTdagger = numpy.array([Ta, Tb])` has rows of different lengths for open shells (estimators/pw_fft.py:42-43), which
  numpy 1.24 and later reject: `C71_open_shell_refuted`.
- C71: the lookup table has radix `2 nmax` for `2 nmax + 1` values per component (pw_fft.py:115, 249-275). This is not an
  error: `C71_lookup` shows that in the sphere no two vectors share an index and none is out of range.
- C72: `construct_force_bias_fft` builds the same ragged `CTdagger` (propagation/pw.py:292-293): open shells with force bias
  raise with numpy 1.24 and later, `C72_open_shell_refuted`.
- C73: `simple_fci_bose_fermi` copies the upper triangle of `hel` to the lower one without conjugation (estimators/ci.py:47-48),
  so complex integrals give a matrix that is not Hermitian to `eigsh`, `C73_complex_refuted`.
- C73: the coupling in `simple_fci_bose_fermi` is `+g n (b + b^dagger)` (ci.py:91), in `local_energy_hubbard_holstein` and the
  trial wavefunctions it is `-g`.  The energies agree (`C73_sign`), but printed displacements have the opposite sign.
- C74: `write_fcidump_kpoint` with cplx=False always exits (hamiltonian_converter.py:506): `len(numpy.where(...))` is the number
  of index arrays, 2 for a matrix, not the number of imaginary elements, `C74_real_refuted`.
- C74: `get_kpoint_chol` takes conj(L[-Q][k]) for a missing L[Q][k] (hamiltonian_converter.py:415-418).  The conjugate belongs to
  the k point k - Q with exchanged orbitals (`C74_symmetry`); the integrals lose their symmetry, `C74_minus_refuted`.
- C75: `get_hmatel(di, dj)` is <dj|H|di>, and `recompute_ci_coeffs` stores it in H[i,j] (multi_slater.py:199-204): the matrix is
  transposed.  With complex integrals the coefficients come out conjugated (`C75_ortho_conj`); for a purely imaginary hopping the
  trial gets the highest energy (`C75_imaginary`, `C75_ortho_refuted`).
- C75: pairs of determinants with an overlap of at most 1e-12 lose their Hamiltonian element too (multi_slater.py:216), although it
  need not be small, `C75_threshold_refuted`; exactly orthogonal pairs raise in the inversion before the test, and after
  `half_rotate` (every Generic system) `self.rchol(i)` raises AttributeError, `C75_raises`.  After recomputing, `le_coeffs` keeps the
  old coefficients (outside the model).
- C76: `from_phmsd` sorts the occupied orbitals in spin_occs but not in the matrices (multi_slater.py:182-183, 190-191).  With unsorted
  lists the overlaps with walkers carry the sign of the permutation and the Hamiltonian matrix elements do not: two different trial
  wavefunctions, `C76_order_refuted`.
- C76: a list with a repeated orbital, or with one orbital for several electrons (broadcast by numpy), gives a determinant that is zero,
  without an error, `C76_doubled`; with orbs the name `I` is never bound, so every expansion raises, `C76_raises`.
- C77: the docstring of `regularise_matrix_inverse` promises a pseudo-inverse (linalg.py:75).  With a cutoff the result B satisfies
  A B A = A only for A = 0, `C77_pseudo`, `C77_pseudo_refuted`; without one, singular matrices give NaN, `C77_exact`.
- C78: `average_tau` divides the spread of ETotal and of the energy by the root of the number of samples, but not that of the weight
  and the numerator (blocking.py:215-218): these "errors" are standard deviations, `C78_others_partial`, `C78_weight_refuted`.  The
  relative errors make the error of an energy of zero NaN, `C78_zero_refuted`.
- C79: `analyse_one_body` never uses `skip` (rdm.py:12), so that the first samples stay in, `C79_skip_refuted`.  It detects an operator
  with a spin index (rdm.py:15-18) but contracts with 'ij,ij->', which raises, `C79_spin_raises`.
- C84: `analyse_ekt_ipea` symmetrises the density matrix but not the averaged Fock matrices (blocking.py:353, 360), whose noise
  need not be Hermitian; eigh then reads one triangle.  `C84_potentials_partial` assumes Hermitian ones,
  `C84_nonhermitian_refuted` shows the failure for F = i.  Both assume that eigh diagonalises every Hermitian matrix.
- C80: `average_correlation` computes the mean Green's function `mg` and returns `gf`, all samples, instead (blocking.py:191, 196),
  `C80_samples`.  Nothing calls the function.
- C81: `rotated_greens_function` stores in `Gmod` the transpose of what `greens_function` stores there (single_det.py:311, 335),
  `C81_transpose`, `C81_shape_refuted`.  Nothing calls the function.

## 5. Assumptions listed by `Print Assumptions`

Most property theorems are closed under the global context: no axioms at all. The theorems about real
and complex numbers (file groups Hirsch, Sample, Phaseless and others that import `Reals` or Coquelicot)
list axioms of Coq's standard library and nothing else:

- `ClassicalDedekindReals.sig_forall_dec`, `ClassicalDedekindReals.sig_not_dec` (the real numbers),
- `FunctionalExtensionality.functional_extensionality_dep`,
- `Classical_Prop.classic` (used by the trigonometric functions and by Coquelicot).

Mathcomp's structures and finite matrices are used without any axiom. (`coqchk -o` prints fields of
mathcomp's sealed modules, such as `BigOp.bigopE`; they are instances of module types checked in
mathcomp itself, and no theorem depends on them as axioms.)

## 6. Tests against wrong programs

`seeded/LOG.jsonl` has one line per edit made to a scratch copy of the model. `theorems_failed`
lists the property theorems whose proof no longer checks, or that rest on a lemma whose proof no
longer checks. `claim_shown_false`, where present, says that a counterexample to the property was
compiled against the edited model. `theorems_tightened` lists statements strengthened because the
edit was not noticed at first.
