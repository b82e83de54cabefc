# Formal model of NaMaster: design

The subject is LSSTDESC/NaMaster (Python package `pymaster` + C library) as found in `/repo`.
The model is written in Rocq (Coq 8.16.1) under `rocq/theories`, namespace `Verif`.
Properties are listed in `properties.jsonl`, the mapping to theorems is in `MANIFEST.json`,
wrong programs tried against the theorems are in `seeded/LOG.jsonl`.

## Layout

| file | content |
|------|---------|
| `Field.v`, `FieldR.v`, `Base.v` | ordered fields (`ofield`; instances: canonical rationals, Coq's reals), lists, finite sums, results (`Ok`/`Exn`/`UB`) |
| `M_*.v` | executable models, one per group of source files, no proofs; every definition cites file and lines of `/repo` |
| `L_*.v` | lemmas |
| `P_*.v` | the property theorems `Cnn_…`, non-vacuity examples and `Print Assumptions` |

Every Python or C function is a total Gallina function.  Its result is `Ok value`, `Exn e` (a Python
exception; the SWIG layer turns C errors into `RuntimeError`) or `UB` (out-of-range or uninitialised
memory access, signed overflow).  Methods that change an object return the new object together with
the outcome, so that the state after a failure is visible.

## Trusted base

* Coq's kernel (8.16.1), no plugin, no kernel check switched off, no axiom, no admitted proof.
* `Print Assumptions` is run in the `P_*.v` files.  All theorems are "Closed under the global
  context" except those listed below, which use the axioms of the standard library's real numbers
  (`ClassicalDedekindReals.sig_forall_dec`, `ClassicalDedekindReals.sig_not_dec`,
  `FunctionalExtensionality.functional_extensionality_dep`, and for some of them
  `Classical_Prop.classic`): see the section *Assumptions* at the end.
* The correspondence between `/repo` and the `M_*.v` files, which is by reading.

## Numbers

Floating point numbers are idealised as elements of an arbitrary ordered field (`Field.v`, record
`ofield`).  Theorems are generic in that field and need no axiom.  Examples and counterexamples are
evaluated in the canonical rationals `Qc`.  Coq's reals are used only where trigonometry, square
roots or exponentials matter.  Not covered: rounding, NaN/Inf (a division by zero is an exception or
`UB` as noted in each model), overflow of doubles.  32-bit integer overflow is modelled where a
product of sizes can overflow (C16, C56, C57); elsewhere integers are unbounded.

## External code

Spherical harmonic transforms (healpy/ducc0), non-uniform transforms, FFTs, eigen-decomposition and
inverse of the template matrix, Wigner-3j values, `sqrt`, `exp`, `log`, HEALPix pixel centres and
random streams are universally quantified functions (section variables that become explicit
arguments).  What is assumed of them is a hypothesis visible in the theorem.  GSL's LU solve/invert,
BLAS products and CFITSIO's status convention are modelled concretely.

## What is modelled

| source | model | properties |
|--------|-------|------------|
| `bins.py` NmtBin, `nmt_bins.c` | `M_Bins.v` | C01–C09 |
| `bins.py` NmtBinFlat, `nmt_bins_flat.c` | `M_FlatBins.v` | C10, C11 |
| GSL/BLAS calls | `M_LinAlg.v` | used by C13, C14, C53–C55 |
| `nmt_master.c` couple/decouple/bin/windows/beams, wrappers, `workspaces.py` methods | `M_Workspace.v` | C12–C19 |
| `nmt_master.c:157-1139` coupling coefficients (plain, purified, T-E-B, Toeplitz, anisotropic), `utils.c:82-343` array use | `M_MCM.v` | C20–C26, C28 |
| OpenMP regions of `nmt_master.c` | `M_OMP.v` | C27 |
| `workspaces.py` object life | `M_Session.v` | C29–C31 |
| `nmt_io.c:5-394` | `M_FITS.v` | C32–C34 |
| `utils.py` parameters, layouts, pixelisations, iterations; ring functions of `healpix_extra.c` | `M_Utils.v` | C46–C51 |
| `field.py` NmtField | `M_Field.v` | C35–C40, C66–C70 |
| `field.py` catalogue fields; `workspaces.py` compute_coupled_cell, deprojection biases, compute_full_master | `M_Cell.v` | C41–C45 |
| `nmt_covar.c`, `utils.c:381-446`, `covariance.py` (curved sky) | `M_Covar.v` | C52–C56, C71–C73 |
| `nmt_mask.c`, `nmt_mask_flat.c`, `healpix_extra.c:264-479`, `utils.py` mask_apodization(_flat) | `M_Apod.v` | C58, C59, C64, C74, C89 |
| OpenMP loops of `nmt_mask.c`, `nmt_mask_flat.c` | `M_ApodPar.v` | C60 |
| `flatsky_utils.c:77-232, 356-468` (flat transforms, E/B rotation, flat power spectra), geometry of `nmt_field_flat.c:36-64` | `M_Flat.v` | C61, C62 |
| `field.py` NmtFieldFlat.get_ell_sampling, `namaster.i:875-881` | `M_FlatEll.v` | C90 |
| `utils.c:143-343` (drc3jj, the recursion) | `M_Wigner.v` (existence of the symbols by Racah's formula: `L_Racah.v`) | C92 |
| `utils.c:82-132` (drc3jj_000) with the Legendre product formula | `M_MCM.v`, `L_Legendre.v` | C91, C92 |
| `utils.py:576-681` (synfast_spherical: checks, map geometry, beams, transforms, layout) | `M_SynSph.v` | C93 |
| (end to end: fields, spectra, workspace, bandpowers; no new definitions of code) | `P_Mean.v`–`P_Mean9.v` over `M_Field.v`, `M_Cell.v`, `M_MCM.v`, `M_Workspace.v`, `M_Catalog.v`, `M_Session.v` | C94 |
| `nmt_master_flat.c:34-539, 718-908` (flat coupling matrix, coupling, decoupling), `field.py:615-737` without templates or purification, `workspaces.py:497-661, 942-985` | `M_WspFlat.v` | C63, C77, C86, C87 |
| `flatsky_utils.c:470-602` (fs_synalm), `nmt_field_flat.c:522-580` (synfast_flat), `namaster.i:383-432`, `utils.py:701-770`; `utils.py:576-681` only as to the use of the seed; generator, matrix root are oracles | `M_Syn.v` | C65, C78 |
| `nmt_covar_flat.c:27-287` (workspace), `315-454` (Gaussian covariance), `namaster.i:598-604, 666-696`, `covariance.py:259-350, 457-506`; the int product of mode numbers is an oracle with two readings (undefined, wrap-around) | `M_CovFlat.v` | C57, C79, C88 |
| `nmt_field_flat.c:112-272` (purification), `274-520` (fields with templates), `utils.c:345-380`, `flatsky_utils.c:39-75`, `namaster.i:237-334`, `field.py:615-792` NmtFieldFlat; the eigen-decomposition is an oracle | `M_FieldFlat.v` | C64, C80, C81, C87 |
| `nmt_master_flat.c:4-15` (purify_generic_flat), `541-715` (deprojection bias), `898-951` (power spectra), `flatsky_utils.c:302-354`, `namaster.i:541-564, 840-873`, `workspaces.py:857-902, 1074-1171`; `comp_pspec_flat` with an empty workspace is the call without one | `M_BiasFlat.v` | C82, C83 |
| `nmt_io.c:395-738` (FITS files of flat-sky workspaces), `740-872` (covariance workspaces), `874-945` (flat-sky covariance workspaces), `workspaces.py:513-523, 563-661`, `covariance.py:148-162, 248-256, 277-287, 341-350`; CFITSIO is a list of units | `M_FITS2.v` | C84, C85 |

## What is not modelled

* Floating point effects, memory allocation failure, printing, timing.
* The rounding errors of Wigner-3j symbols (their recursion is modelled in exact arithmetic, `M_Wigner.v`; the
  coupling matrices of `M_MCM.v` take the values as a parameter, linked by `C92_in_coupling`), transforms, eigen-solvers and FITS encoding.
* The int32 casts of `bins.py:57-58`; Python values of the wrong type except where a property is about them.
* HEALPix pixel geometry beyond the ring layout and the azimuths of C74; the WCS library beyond linear CAR coordinates.
* `sampling`/`toolbox` helper scripts, documentation and tests.

## Findings

The faithful model violates the intended property; each entry names the theorem with the witness.

| theorem | finding |
|---|---|
| C04_reversed_edge_refuted | `NmtBin.from_edges` silently drops a reversed trailing interval instead of raising. |
| C05_overlap_refuted, C13_repeated_multipole_refuted, C33_overlap_refuted | Overlapping bandpowers or repeated multipoles are accepted by the constructor; unbinning, coupling and writing then lose them. |
| C07_negative_f_ell_refuted | Non-positive `f_ell` values are replaced by one without notice. |
| C08_ell_min_refuted | `get_ell_min`/`get_ell_max` return the first and last listed multipole, not the extremes. |
| C09 refutations | Negative band indices and multipoles reach the C code unchecked. |
| C10_gap_refuted, C11_bin_not_average_refuted | Flat bins: in a gap the look-up returns a neighbouring band that depends on the previous guess; `bin_cell` samples the centre of the band instead of averaging. |
| C15_bias_length | `decouple_cell`: biases longer than the spectrum raise although longer spectra are truncated. |
| C16_get_overflows, C16_update_overflows | `get_coupling_matrix`/`update_coupling_matrix`: the 32-bit index arithmetic overflows for more than 46340 rows. |
| C22_odd_spin_refuted, C25_odd_spin_refuted | Blocks of odd-spin fields differ by a sign from the exchanged pair / the isotropic limit. |
| C23_mixed_spins_purified_refuted | The exchange symmetry fails for two purified fields of different non-zero spin. |
| C25_wrapper_exchanges_0b_and_e0, C25_names_refuted, C25_0b_ignored, C25_e0_ignored | The SWIG wrapper for anisotropic masks passes the 0B mask spectrum as E0 and the E0 one as 0B; with one isotropic mask one of them has no effect. |
| C28_table_overrun_refuted, C28_teb_purified_refuted, C28_short_mask_refuted, C28_spin0_purified_refuted | Reads of unwritten or foreign memory: T-E-B workspace with a purified field, short mask spectra, purified spin-0 field. |
| C30_update_refuted | `update_beams`/`update_bins` on an object without a matrix dereference a null pointer. |
| C31_long_beam_refuted, C31_anisotropic_teb_ignored, C31_anisotropic_toeplitz_zero_refuted | A beam longer than lmax+1, accepted by NmtField, makes the workspace fail; with anisotropic masks `is_teb` is ignored and `l_toeplitz=0` rejected. |
| C32_fkp_update_refuted | The FKP normalisation is not stored in the file: updates after reading use an uninitialised number. |
| C34_legacy_never_read_refuted | The error status of the first reader is never cleared, so that legacy files are always rejected. |
| C35_small_template_refuted, C35_vanishing_template_refuted | A template with a small eigenvalue is not removed; a template vanishing inside the mask makes the field unusable. |
| C37_purified_outside_mask_refuted, C37_negative_mask_refuted | Purified fields: values outside the mask matter / masks with negative values. |
| C39_lite_recomputes_refuted | The mask multipoles of a lite field depend on the calculator chosen later. |
| C41_full_master_refuted, C41_full_master_lite_refuted | `compute_full_master` never works for catalogue or lite fields. |
| C42_low_multipoles_refuted, C42_same_object | Catalogue noise is subtracted below the spin where there is none; a copy of a catalogue is not recognised as the same. |
| C44_anisotropic_refuted, C44_default_iterations_refuted | The deprojection bias is not the expected change for anisotropic masks or when n_iter differs from that of the fields. |
| C45_cross_component_refuted, C45_purified_refuted, C45_flipped_refuted | The noise deprojection bias is wrong for EB and BE separately, for purified fields and for maps whose pixels are reordered. |
| C47_nside_one_refuted | A 12-pixel HEALPix map is refused. |
| C51_nan_refuted | A NaN tolerance passes the range check. |
| C55_unwritten_refuted | `gaussian_covariance(coupled=True)` returns uninitialised numbers for multipoles outside the bandpowers. |
| C56_too_large, C56_overflow_refuted | Covariances with more than 2^31-1 elements fail with an unrelated error or worse. |
| C67_different_lmax | A purified field with lmax different from lmax_mask cannot be built; the documentation does not say so. |
| C73_cauchy_schwarz_refuted, C73_ee_bb | The covariance of EE and BB is not positive semi-definite. |
| C59_flat_unknown_type_refuted, C59_smooth_zero_scale | Apodisation with a zero scale: the flat routine accepts any type name, and Smooth returns the square of the mask. |
| C64_apodization_refuted, C64_apodization_ignores_height | Flat apodisation uses the width of a pixel for its height: wrong for pixels that are not square. |
| C74_ring_query_refuted | The ring query behind curved apodisation loses all pixels but one of an almost complete ring, so that masked pixels close to the poles can be overlooked. |
| C61_negative_spin, C61_negative_spin_refuted | NmtFieldFlat accepts negative spins, but the flat rotation of Q and U into E and B does nothing for them, so that pure-E patterns show up in B. |
| C62_asymmetric_range_refuted | fs_alm2cl reads for a mode with negative kx the coefficient of (-kx,ky) instead of (-kx,-ky). With an excluded range of ky that is not symmetric the bandpowers are not averages over the modes that were kept (wrong by a factor two in the example). |
| C63_straddling_ring_refuted, C63_outer_modes_refuted | NmtWorkspaceFlat.couple_cell averages the input spectrum over rings of its own before applying the matrix: rings that straddle the edge of a bandpower mix two bands, and all modes of the last incomplete ring are dropped, so that not even a constant spectrum survives coupling followed by decoupling. |
| C65_thread_count_refuted, C65_arrival_refuted, C65_distinct_seeds_refuted, C65_shared_streams | fs_synalm seeds the generator of each thread with seed plus a number handed out in the order in which the threads arrive. The map therefore depends on the number of threads and on their timing, and neighbouring seeds share all but one of their streams: a run with seed 6 can return the very map of a run with seed 5. |
| C65_spherical_ignores_seed, C65_spherical_seed_refuted | synfast_spherical never uses the seed it is given: a non-negative seed has no effect at all and two calls with the same seed give different maps. |
| C78_nyquist_refuted | fs_synalm draws the self-conjugate modes of even grids (column nx/2, and (0, ny/2)) as ordinary complex modes of which only the real part survives: they come out with half the requested power. |
| C57_overflow_refuted, C57_wrap_refuted, C57_zero_covariance | nmt_covar_workspace_flat_init multiplies two numbers of modes as C ints: from 46341 modes in a band the product overflows, which is undefined behaviour. With wrap-around a 256x256 map and one band holding all modes has product 2^32 = 0 and its covariance is exactly zero. |
| C79_bin_b_ignored, C79_bin_b_refuted | The documented argument bin_b of NmtCovarianceWorkspaceFlat.compute_coupling_coefficients is ignored except for its number of bands: the covariance between spectra with different bandpowers is wrong (twice the true one in the witness). |
| C79_cuts_refuted | The flat-sky covariance ignores the excluded ranges ell_cut_x, ell_cut_y of the workspaces: in the witness, where half of the modes are cut, it is half of the true covariance. |
| C64_purification_refuted | Flat purification takes derivatives in units of pixels (2*pi/nx, 2*pi/ny) but rotates with the true wavenumbers: for every geometry whose pixels are not square, some maps without B modes have B modes after purification. |
| C83_single_band_refuted | compute_full_master_flat without a guess aborts the process when the binning has a single band (the interpolation of the zero guess needs two points), although its documented steps succeed. |
| C83_lite_refuted | compute_full_master_flat always computes the deprojection bias, so it refuses fields made with lite=True even without templates, although its documented steps succeed without the bias. |
| C83_other_workspace_refuted | compute_full_master_flat does not compare the number of spectra of a given workspace with that of the fields: memory is read and written out of bounds. |
| C81_vanishing_template_refuted | Flat-sky templates that all vanish inside the mask make the maps NaN: the eigenvalues are zero, none is below the threshold tol_pinv times the largest (zero), and the pseudo-inverse divides by zero. Stated as ZeroDivisionError of the model. |
| C81_faint_template_refuted | The threshold tol_pinv is relative to the largest eigenvalue and templates are not normalised: a template whose norm is much smaller than that of another one (in other units, for instance) is silently not deprojected. |
| C84_couple_rounding_refuted | Pixel sizes and the ring width of a flat-sky workspace are stored as keywords with 15 digits; after reading, couple_cell can put a mode that lies on the edge of a ring into the neighbouring ring and return a spectrum that differs by order one (0.667 instead of 0.381 in the witness). decouple_cell is not affected. |
| C84_sizes_not_checked_refuted | The reader of flat-sky workspaces does not compare the number of bands with the sizes of the matrices: an inconsistent file is accepted and decouple_cell aborts. |
| C85_rows_not_checked_refuted | The reader of covariance workspaces compares only the number of columns of a table with lmax+1: a table with fewer rows is accepted and its missing rows are uninitialised memory, one with more rows overflows a buffer. |
| C85_opposite_spins_refuted | The check of a scalar-only covariance workspace adds up the four spins: spins such as 2, -2, 2, -2 pass and the covariance is computed with the coefficients of scalar fields. |
| C86_chiral_mask_refuted | The flat-sky coupling matrix takes the mask spectrum at (kx,-ky) for half of the mode pairs, so that its coefficients between TE and TB, or EE and EB, are always zero (C86_no_parity_mixing), whereas masks without mirror symmetry mix them: a sky with TE and no TB gives, on average, TB that is not zero. |
| C88_EE_BB_refuted, C88_sign_refuted, C88_EB_refuted | For four spin-2 fields the flat-sky Gaussian covariance of EE and BB is -4 times the true covariance (negative where the true one is positive): the mixing coefficient of sin sin is counted four times with the wrong sign. The covariances (EB,EB) and (EB,BE) exceed the true ones by 5 times that of (EE,BB) in total. |
| C89_pole_refuted | mask_apodization (C1, C2) on HEALPix maps overlooks masked pixels whose ring lies almost completely in the disc around a pixel near a pole: a pixel 83.6 degrees from the only masked pixel keeps its value for a scale of 84.8 degrees (nside 1). |
| C93_short_beam_refuted | synfast_spherical checks only the length of the first beam. In a list of beams, a later one that is too short is accepted, and the multipoles beyond its end are silently set to zero in the maps of that field (healpy.almxfl); the same beams in the other order are refused. |
| C94_truncation_refuted | With lmax_mask = lmax (also the defaults, which are equal) the spectrum of the masks is cut where it still couples multipoles below lmax: for a mask with power beyond lmax_mask the mean of compute_coupled_cell differs from couple_cell of the true spectrum, with all other conditions met. The code does not warn. C94_truncation gives the exact difference. |

## Assumptions

Output of `Print Assumptions` for the 445 theorems of the manifest:

* closed under the global context: 425 theorems — all but those below.
* `ClassicalDedekindReals.sig_not_dec`, `ClassicalDedekindReals.sig_forall_dec`, `FunctionalExtensionality.functional_extensionality_dep`, `Classical_Prop.classic`: C22_odd_spin_refuted, C25_odd_spin_refuted, C58_libm_laws, C58_window_grows, C64_apodization_refuted, C74_ring_query, C74_full_ring, C74_ring_query_refuted, C89_complete, C89_complete_clear, C89_apodization, C89_returns, C89_pole_refuted, C94_truncation_refuted.
* `ClassicalDedekindReals.sig_not_dec`, `ClassicalDedekindReals.sig_forall_dec`, `FunctionalExtensionality.functional_extensionality_dep`: C61_real_sqrt, C62_real_roots, C77_real_roots, C78_real, C80_real_roots, C80_real_sqrt.
