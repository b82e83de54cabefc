{"id": "C01", "title": "Bandpower weights are normalised", "statement": "Whenever NmtBin construction succeeds, the weights returned by get_weight_list for every bandpower add up to one, whatever (unnormalised) weights were passed; weights that were all non-negative stay non-negative. Construction fails instead of returning a bandpower whose weights add up to zero or less.", "quantifier": "all ell/bandpower/weight arrays of any length, all lmax, all bandpowers", "why_tests_cant": "Tests look at a handful of binning schemes; normalisation must hold for every user-supplied weight array, including ones with unused multipoles, repeated multipoles and negative weights.", "anchors": ["pymaster/bins.py:NmtBin.__init__", "src/nmt_bins.c:nmt_bins_create", "pymaster/bins.py:NmtBin.get_weight_list"]}
{"id": "C02", "title": "Bandpower membership is exactly what the caller assigned", "statement": "After NmtBin(bpws, ells, weights, lmax) the multipole list of band b is exactly the subsequence of the input multipoles with bandpower index b and ell<=lmax, in input order; multipoles with a negative bandpower index or above lmax appear in no band; get_n_bands is one more than the largest used index and get_nell_list gives the lengths of those lists.", "quantifier": "all input arrays, all lmax, all bands", "why_tests_cant": "Filling the per-band arrays uses three separate passes over the inputs with independently written conditions; a mismatch between any two of them corrupts memory only for particular inputs.", "anchors": ["src/nmt_bins.c:nmt_bins_create", "pymaster/bins.py:NmtBin.get_ell_list", "pymaster/bins.py:NmtBin.get_nell_list", "pymaster/bins.py:NmtBin.get_n_bands"]}
{"id": "C03", "title": "Linear binning tiles the multipoles from 2 upwards", "statement": "from_lmax_linear(lmax, nlb) gives bands of exactly nlb consecutive multipoles, band b covering [2+b*nlb, 2+(b+1)*nlb), as many complete bands as fit below lmax; ells 0, 1 and the incomplete last band are in no band; no multipole is in two bands. from_nside_linear(nside, nlb) is the same with lmax=3*nside-1. If no complete band fits, construction fails.", "quantifier": "all lmax>=0 and all nlb>=1 (all nside)", "why_tests_cant": "The last-band logic removes a partial band by counting occurrences; only a proof covers all (lmax, nlb) residues.", "anchors": ["pymaster/bins.py:_get_bpw_arrays_linear", "pymaster/bins.py:NmtBin.from_lmax_linear", "pymaster/bins.py:NmtBin.from_nside_linear", "src/nmt_bins.c:nmt_bins_constant"]}
{"id": "C04", "title": "Edge-defined bands are half-open intervals", "statement": "from_edges(ell_ini, ell_end) with increasing non-empty intervals gives as many bands as edges; band b contains exactly the integers ell with ell_ini[b]<=ell<ell_end[b] with equal weights 1/(ell_end-ell_ini), and lmax is the largest multipole. The number of bands should equal the number of edges passed (a reversed trailing interval must not silently disappear).", "quantifier": "all lists of edges", "why_tests_cant": "Off-by-one at the edges and empty/reversed intervals occur for particular inputs only.", "anchors": ["pymaster/bins.py:NmtBin.from_edges", "src/nmt_bins.c:nmt_bins_create"]}
{"id": "C05", "title": "Binning undoes unbinning", "statement": "bin_cell(unbin_cell(b)) == b for every set of bandpowers b, whenever no multipole belongs to two bands.", "quantifier": "all binning schemes with disjoint bands, any number of spectra, all bandpower values, all non-zero f_ell", "why_tests_cant": "Round trip over arbitrary weights, f_ell and band layouts; random tests exercise few layouts.", "anchors": ["pymaster/bins.py:NmtBin.bin_cell", "pymaster/bins.py:NmtBin.unbin_cell", "src/nmt_bins.c:nmt_bin_cls", "src/nmt_bins.c:nmt_unbin_cls"]}
{"id": "C06", "title": "Unbinned spectra are piecewise constant and zero outside bands", "statement": "unbin_cell(b) has length lmax+1; its value at a multipole in exactly one band is that bandpower divided by f_ell at that multipole, and it is zero at multipoles in no band.", "quantifier": "all binning schemes, all bandpowers, all multipoles 0..lmax", "why_tests_cant": "The output array must be fully initialised for every band layout.", "anchors": ["pymaster/bins.py:NmtBin.unbin_cell", "src/nmt_bins.c:nmt_unbin_cls", "pymaster/namaster.i:unbin_cl"]}
{"id": "C07", "title": "Binning is a linear, local, bounded average", "statement": "bin_cell is linear in the power spectrum; each bandpower depends only on multipoles in that band; with non-negative weights and no f_ell each bandpower lies between the smallest and largest input value in the band, and a constant spectrum is reproduced.", "quantifier": "all binning schemes, all spectra", "why_tests_cant": "Universal statement over spectra and weights.", "anchors": ["pymaster/bins.py:NmtBin.bin_cell", "src/nmt_bins.c:nmt_bin_cls"]}
{"id": "C08", "title": "Effective multipoles lie inside their band", "statement": "get_effective_ells()[b] lies between the smallest and largest multipole of band b whenever the weights are non-negative; get_ell_min/get_ell_max are the first/last multipoles of the band.", "quantifier": "all binning schemes, all bands", "why_tests_cant": "Universal over weights.", "anchors": ["pymaster/bins.py:NmtBin.get_effective_ells", "pymaster/bins.py:NmtBin.get_ell_min", "pymaster/bins.py:NmtBin.get_ell_max", "src/nmt_bins.c:nmt_ell_eff"]}
{"id": "C09", "title": "Binning shape guards", "statement": "bin_cell raises exactly when the spectra do not have lmax+1 multipoles and unbin_cell raises exactly when the number of bandpowers differs from get_n_bands; otherwise the output has the same number of spectra (one-dimensional in gives one-dimensional out) and n_bands (lmax+1) entries; asking for a band index that does not exist raises.", "quantifier": "all array shapes", "why_tests_cant": "Decision rule over all shapes.", "anchors": ["pymaster/bins.py:NmtBin.bin_cell", "pymaster/bins.py:NmtBin.unbin_cell", "pymaster/namaster.i:get_ell_list"]}
{"id": "C10", "title": "Flat-sky band look-up", "statement": "For a flat binning whose bands are sorted and contiguous, the band found for a wavenumber k is the unique band with l0<=k<lf, or none if k is outside all bands, independently of the previous look-up result passed as starting guess. Bands with gaps must not claim wavenumbers that lie in the gap.", "quantifier": "all binning edges, all k, all starting guesses", "why_tests_cant": "The search is stateful (guess carried from one pixel to the next and, under OpenMP, different per thread) so results must not depend on history.", "anchors": ["src/nmt_bins_flat.c:nmt_bins_flat_search_fast"]}
{"id": "C11", "title": "Flat-sky binning and unbinning", "statement": "NmtBinFlat.unbin_cell returns, for every requested ell, the bandpower of the band containing it irrespective of the order of the ells; bin_cell of the interpolation of bandpowers at band centres returns those bandpowers, effective ells are band centres.", "quantifier": "all edges, all ell arrays in any order, all values", "why_tests_cant": "History-dependent search plus interpolation at the edges.", "anchors": ["src/nmt_bins_flat.c:nmt_bin_cls_flat", "src/nmt_bins_flat.c:nmt_unbin_cls_flat", "pymaster/bins.py:NmtBinFlat"]}
{"id": "C12", "title": "couple_cell is multiplication by the returned coupling matrix", "statement": "couple_cell(cl)[i][l] equals the sum over j, l' of get_coupling_matrix()[ncls*l+i, ncls*l'+j] * beam[l'] * cl[j][l']; it is linear in cl, and raises for spectra of the wrong shape.", "quantifier": "all coupling matrices, beams and spectra of any lmax and number of spectra", "why_tests_cant": "Index layout (ell-major, spectrum-minor) has to be consistent between three API calls for all sizes.", "anchors": ["src/nmt_master.c:nmt_couple_cl_l", "pymaster/workspaces.py:NmtWorkspace.couple_cell", "pymaster/workspaces.py:NmtWorkspace.get_coupling_matrix"]}
{"id": "C13", "title": "Decoupling inverts coupling for bandpower-constant spectra", "statement": "decouple_cell(couple_cell(unbin_cell(b))) == b for all bandpowers b, whenever the binned coupling matrix is invertible and no multipole is listed twice in the binning scheme.", "quantifier": "all masks' coupling matrices with invertible binned version, all beams, binning schemes, f_ell and bandpowers", "why_tests_cant": "The unbiasedness statement of MASTER; tests check a few masks up to tolerance.", "anchors": ["src/nmt_master.c:nmt_decouple_cl_l", "src/nmt_master.c:bin_coupling_matrix", "src/nmt_master.c:nmt_couple_cl_l", "pymaster/workspaces.py:NmtWorkspace.decouple_cell"]}
{"id": "C14", "title": "Bandpower windows describe decouple(couple(.)) exactly", "statement": "Summing get_bandpower_windows()[i,b,j,l] * cl[j][l] over j,l gives decouple_cell(couple_cell(cl))[i][b] for every spectrum cl.", "quantifier": "all workspaces and all theory spectra", "why_tests_cant": "Two separately written loops must agree for all inputs.", "anchors": ["src/nmt_master.c:nmt_compute_bandpower_windows", "pymaster/workspaces.py:NmtWorkspace.get_bandpower_windows"]}
{"id": "C15", "title": "Noise and deprojection bias are subtracted before decoupling", "statement": "decouple_cell(cl, cl_bias=d, cl_noise=n) == decouple_cell(cl-d-n), decouple_cell is linear in cl, and omitted biases count as zero.", "quantifier": "all workspaces and spectra", "why_tests_cant": "Universal algebraic law.", "anchors": ["pymaster/workspaces.py:NmtWorkspace.decouple_cell", "src/nmt_master.c:nmt_decouple_cl_l"]}
{"id": "C16", "title": "Reading and writing the coupling matrix round-trips", "statement": "get_coupling_matrix after update_coupling_matrix(M) returns M for every M of the right shape; update_coupling_matrix(get_coupling_matrix()) changes nothing; a matrix of any other shape is rejected and leaves the workspace unchanged.", "quantifier": "all sizes and matrices", "why_tests_cant": "Flattened index arithmetic (in 32-bit integers) must be right for every size, also beyond 46340 rows.", "anchors": ["src/nmt_master.c:nmt_update_coupling_matrix", "pymaster/workspaces.py:NmtWorkspace.update_coupling_matrix", "pymaster/namaster.i:get_mcm", "pymaster/namaster.i:update_mcm"]}
{"id": "C17", "title": "update_beams is equivalent to recomputation with the new beams", "statement": "After update_beams(b1,b2) every observable of the workspace (decoupling, windows, coupling) is the one obtained by computing the workspace from fields with those beams; the latest beams win for any sequence of updates.", "quantifier": "all histories of updates and all beams", "why_tests_cant": "History property.", "anchors": ["pymaster/workspaces.py:NmtWorkspace.update_beams", "src/nmt_master.c:nmt_workspace_update_beams"]}
{"id": "C18", "title": "update_bins is equivalent to recomputation with the new bins", "statement": "After update_bins(bins) every observable of the workspace is the one obtained by computing it with those bins; bins with another lmax are rejected and nothing changes; updates of beams, bins and coupling matrix commute with recomputation.", "quantifier": "all histories of updates", "why_tests_cant": "History property.", "anchors": ["pymaster/workspaces.py:NmtWorkspace.update_bins", "src/nmt_master.c:nmt_workspace_update_binning"]}
{"id": "C19", "title": "FKP normalisation only rescales", "statement": "With normalization='FKP' the decoupled bandpowers are the binned pseudo-spectra divided by the mean product of the masks, independently of the coupling matrix and beams.", "quantifier": "all workspaces computed with FKP normalisation, all spectra", "why_tests_cant": "Universal over masks.", "anchors": ["src/nmt_master.c:bin_coupling_matrix", "pymaster/workspaces.py:NmtWorkspace.compute_coupling_matrix"]}
{"id": "C20", "title": "Spin block structure of the coupling matrix", "statement": "Spin-0 x spin-s matrices never mix E and B; for spin-s x spin-s without purification the EE/BB and EB/BE blocks have the documented symmetric structure: EE->EE = BB->BB, EE->BB = BB->EE, EB->EB = BE->BE, EB->BE = BE->EB = -(EE->BB), all other entries are zero.", "quantifier": "all masks, all lmax, all spins, purified or not", "why_tests_cant": "Hand-written index pairs for 1, 4 and 16 blocks.", "anchors": ["src/nmt_master.c:nmt_compute_coupling_matrix", "src/nmt_master.c:populate_toeplitz", "src/nmt_master.c:nmt_compute_master_coefficients"]}
{"id": "C21", "title": "Coupling matrix is symmetric up to the (2l+1) factor", "statement": "(2l+1) M[l,l'] == (2l'+1) M[l',l] for every un-purified block.", "quantifier": "all masks, all l,l'", "why_tests_cant": "Only one triangle is computed; the other is filled by symmetry.", "anchors": ["src/nmt_master.c:nmt_compute_coupling_matrix", "src/nmt_master.c:nmt_compute_master_coefficients"]}
{"id": "C22", "title": "A joint T/E/B workspace equals the separate ones", "statement": "A workspace computed with is_teb=True for un-purified fields holds in its 7x7 structure the spin-0 x 0, 0 x s and s x s coupling matrices of the separate workspaces, for even spins s (for odd s the TT and polarisation blocks carry the extra sign (-1)^s), and nothing else.", "quantifier": "all masks, lmax and spins", "why_tests_cant": "Index bookkeeping over 49 blocks.", "anchors": ["src/nmt_master.c:nmt_compute_coupling_matrix", "pymaster/workspaces.py:NmtWorkspace.compute_coupling_matrix"]}
{"id": "C23", "title": "Exchanging the two fields permutes the spectra", "statement": "The coupling matrix for (field2, field1) is the one for (field1, field2) with EB and BE exchanged; for 0 x s and s x 0 they are identical. This holds for un-purified fields, and for purified ones when the spins agree or one of them is 0.", "quantifier": "all pairs of fields", "why_tests_cant": "Asymmetric purification cases handled by separate index tables.", "anchors": ["src/nmt_master.c:nmt_compute_coupling_matrix"]}
{"id": "C24", "title": "Coupling matrix is linear in the mask spectrum; full sky does not couple", "statement": "The coupling matrix is linear in the pseudo-spectrum of the masks; for full-sky unit masks (mask spectrum 4pi at l=0 only) it is the identity for multipoles at least as large as the spins.", "quantifier": "all mask pseudo-spectra, all lmax", "why_tests_cant": "Universal over mask spectra.", "anchors": ["src/nmt_master.c:nmt_compute_master_coefficients", "src/nmt_master.c:nmt_compute_coupling_matrix"]}
{"id": "C25", "title": "Anisotropic-noise masks pass through in the documented order", "statement": "A weight mask without anisotropic components (zero E/B mask spectra) reproduces the isotropic coupling matrix up to the factor (-1)^(s1+s2), so exactly for even spin sums; (2l+1) M is symmetric; exchanging the two fields with all their spectra only exchanges EB and BE; every mask cross-spectrum reaches the parameter with its own name.", "quantifier": "all mask alms", "why_tests_cant": "Argument order of nine same-typed arrays: a swap of two of them is invisible whenever the swapped arrays are equal or both unused, and the sign only appears for odd spin sums.", "anchors": ["pymaster/namaster.i:comp_coupling_matrix_anisotropic", "src/nmt_master.c:nmt_compute_coupling_matrix_anisotropic"]}
{"id": "C26", "title": "Toeplitz approximation", "statement": "A non-positive l_toeplitz leaves the coupling matrix exact. A positive one is accepted only if 0 < l_exact <= l_toeplitz < lmax, 0 <= dl_band < lmax and no field is purified; everything else raises ValueError. With accepted parameters the diagonal, the rows and columns below l_exact, and the band of width dl_band up to l_toeplitz (away from the lower corner) are equal to the exact coupling matrix.", "quantifier": "all (l_toeplitz, l_exact, dl_band), all matrices", "why_tests_cant": "Three interacting cut parameters, boundaries matter.", "anchors": ["pymaster/utils.py:_toeplitz_sanity", "src/nmt_master.c:populate_toeplitz"]}
{"id": "C27", "title": "Coupling matrix does not depend on the thread schedule", "statement": "The coupling coefficients computed with OpenMP are the same for any number of threads and any dynamic schedule.", "quantifier": "all thread counts and interleavings", "why_tests_cant": "Schedules cannot be enumerated by tests.", "anchors": ["src/nmt_master.c:nmt_compute_master_coefficients", "src/nmt_master.c:nmt_compute_master_coefficients_anisotropic"]}
{"id": "C28", "title": "Wigner-3j look-ups stay inside their arrays", "statement": "While accumulating coupling coefficients from pseudo-spectra of the documented length, every 3j value and mask-spectrum element that is used lies inside its array and has been written before.", "quantifier": "all lmax, lmax_mask, l2, l3 and spins, purified or not", "why_tests_cant": "Out-of-bounds reads are silent.", "anchors": ["src/nmt_master.c:nmt_compute_master_coefficients", "src/utils.c:drc3jj"]}
{"id": "C29", "title": "Workspace life-cycle guards", "statement": "Every NmtWorkspace method called before a matrix has been computed or read raises instead of touching freed or missing C data; after a failed computation or read the workspace is either exactly as before (argument errors found before the old matrix is released) or behaves as uninitialised; and at every point of every call sequence the has_unbinned flag is set only if the C structure really holds the unbinned matrix.", "quantifier": "all call histories, including calls after errors", "why_tests_cant": "Histories with exceptions in the middle.", "anchors": ["pymaster/workspaces.py:NmtWorkspace"]}
{"id": "C30", "title": "Unbinned coupling matrix availability", "statement": "After reading a workspace without its unbinned matrix, every method that needs that matrix raises, and methods that do not need it still give the same result.", "quantifier": "all call histories", "why_tests_cant": "History property.", "anchors": ["pymaster/workspaces.py:NmtWorkspace.read_from", "pymaster/workspaces.py:NmtWorkspace._check_unbinned", "src/nmt_io.c:nmt_workspace_read_fits"]}
{"id": "C31", "title": "Workspace computation guards", "statement": "compute_coupling_matrix raises for fields with incompatible resolution, for multipole ranges of bins and fields that differ, for T/E/B workspaces whose fields are not spin 0 and non-zero, for Toeplitz parameters with purified or anisotropic fields and for unknown normalisations; for all other arguments (beams of lmax+1 values) it succeeds.", "quantifier": "all pairs of fields and bins", "why_tests_cant": "Decision table.", "anchors": ["pymaster/workspaces.py:NmtWorkspace.compute_coupling_matrix", "pymaster/field.py:NmtField.is_compatible"]}
{"id": "C32", "title": "Workspace FITS round trip", "statement": "Reading back a written workspace gives a workspace with identical observables, and continues to do so under later updates of beams or bins.", "quantifier": "all workspaces and all subsequent histories", "why_tests_cant": "Lost state only shows in particular follow-up calls.", "anchors": ["src/nmt_io.c:nmt_workspace_write_fits", "src/nmt_io.c:nmt_workspace_read_fits"]}
{"id": "C33", "title": "Binning scheme FITS round trip", "statement": "The binning scheme stored in a workspace file is read back unchanged (same multipoles, weights and f_ell per band) .", "quantifier": "all binning schemes", "why_tests_cant": "One-row-per-multipole format cannot hold every scheme.", "anchors": ["src/nmt_io.c:nmt_binning_scheme_tohdus", "src/nmt_io.c:nmt_binning_scheme_fromhdus"]}
{"id": "C34", "title": "Old workspace files can still be read", "statement": "A file in the legacy binning format is read successfully through the fall-back.", "quantifier": "all legacy files", "why_tests_cant": "Requires legacy files.", "anchors": ["src/nmt_io.c:nmt_workspace_read_fits", "src/nmt_io.c:nmt_binning_scheme_fromhdus_old"]}
{"id": "C35", "title": "Template deprojection leaves maps orthogonal to every template", "statement": "After constructing a field with contaminant templates and no purification, the pixel-area-weighted scalar product of the masked, cleaned maps with every masked template is zero, also when templates are linearly dependent, provided that the eigenvalues of the template matrix that are above the pinv tolerance are not zero and those below it are exactly zero. (Templates whose eigenvalue is non-zero but below the tolerance are not removed; if all templates vanish inside the mask the field is unusable.)", "quantifier": "all maps, masks, pixelisations, numbers of templates, also linearly dependent ones", "why_tests_cant": "Universal over maps; degenerate templates need the pseudo-inverse.", "anchors": ["pymaster/field.py:NmtField.__init__", "src/nmt_field_flat.c:nmt_field_flat_alloc"]}
{"id": "C36", "title": "Deprojection invariance and idempotence", "statement": "Adding any combination of templates to the input maps changes neither the cleaned maps nor the multipoles nor the templates of the field; feeding the cleaned maps and masked templates back with masked_on_input=True returns the same field with all template amplitudes zero.", "quantifier": "all maps, masks, templates and amplitudes (invariance: HEALPix and CAR; feeding back: HEALPix)", "why_tests_cant": "Universal.", "anchors": ["pymaster/field.py:NmtField.__init__"]}
{"id": "C37", "title": "masked_on_input is equivalent to masking the maps", "statement": "A field constructed from maps and templates already multiplied by the mask with masked_on_input=True equals the field constructed from the unmasked ones, and then pixels where the mask is zero never influence the field. With an anisotropic mask the maps are multiplied by the symmetric 2x2 matrix of weights. The claims hold without purification for every mask (negative values included), and the first also with purification if the mask is positive everywhere; both fail for purified fields otherwise.", "quantifier": "all maps, masks, templates", "why_tests_cant": "Universal over maps.", "anchors": ["pymaster/field.py:NmtField.__init__"]}
{"id": "C38", "title": "Field constructor decision table", "statement": "NmtField raises an exception unless the arguments satisfy the documented conditions (shape of maps and templates, 1 or 2 maps matching the spin, purification only at spin 2, anisotropic masks positive semi-definite, only with spin, without purification and templates, beam long enough, positive lmax), and is built whenever they hold; spin, number of maps and number of multipole sets agree with the input maps; lite=True changes no multipole and only drops maps and templates.", "quantifier": "all combinations of arguments", "why_tests_cant": "Interacting optional arguments.", "anchors": ["pymaster/field.py:NmtField.__init__"]}
{"id": "C39", "title": "Mask multipoles are cached transparently", "statement": "get_mask_alms and get_anisotropic_mask_alms return the same value however often and in whatever order they are called, and change no other attribute of the field; unless the field is lite, a value once returned is returned for ever even if the transform library is exchanged in between.", "quantifier": "all fields and call orders", "why_tests_cant": "History property.", "anchors": ["pymaster/field.py:NmtField.get_mask_alms"]}
{"id": "C40", "title": "Field compatibility is an equivalence", "statement": "is_compatible(f,g,strict) holds exactly if lmax and lmax_mask agree and, when strict, the pixelisations agree; it is reflexive, symmetric and transitive, and strict compatibility implies the other.", "quantifier": "all fields", "why_tests_cant": "Universal over triples.", "anchors": ["pymaster/field.py:NmtField.is_compatible", "pymaster/utils.py:NmtMapInfo.is_compatible"]}
{"id": "C41", "title": "Catalogue fields: shot noise and mask noise", "statement": "For catalogue fields, the field noise Nf and mask shot noise Nw are the weighted sums of squares divided by 4pi (position by position, components averaged for spin fields), whatever the positions; rescaling all weights by c rescales both by c^2 and the multipoles by c; the monopole of the clustering field vanishes; map-based fields have no noise.", "quantifier": "all catalogues", "why_tests_cant": "Universal over catalogues.", "anchors": ["pymaster/field.py:NmtFieldCatalog", "pymaster/field.py:NmtFieldCatalogClustering"]}
{"id": "C42", "title": "Coupled spectra of catalogues exclude self pairs", "statement": "compute_coupled_cell subtracts the noise of a catalogue field exactly when both fields are the same object, only from the auto components; for l >= |spin| what remains is the sum over pairs of distinct sources.", "quantifier": "all pairs of fields", "why_tests_cant": "Object identity decision.", "anchors": ["pymaster/workspaces.py:compute_coupled_cell"]}
{"id": "C43", "title": "Order of pseudo-spectra", "statement": "compute_coupled_cell(f1,f2)[i*n2+j] is the spectrum of component i of f1 with component j of f2, so exchanging the fields transposes the list, and it is bilinear in the field multipoles.", "quantifier": "all fields and spins", "why_tests_cant": "Index bookkeeping.", "anchors": ["pymaster/workspaces.py:compute_coupled_cell"]}
{"id": "C44", "title": "Deprojection bias is the bias", "statement": "For two fields with templates and any ensemble of sky maps whose template correlations are those of the guess spectra, deprojection_bias (called with the n_iter of the fields, no anisotropic masks) is the ensemble average of compute_coupled_cell of the cleaned fields minus that of the same fields built without templates, for every component pair and multipole, purified or not.", "quantifier": "all templates, masks, guess spectra, linear transforms and finite ensembles", "why_tests_cant": "A three-term identity between expectation values; a simulation test only sees it up to sample variance and for one geometry.", "anchors": ["pymaster/workspaces.py:deprojection_bias", "src/nmt_master_flat.c:nmt_compute_deprojection_bias_flat"]}
{"id": "C45", "title": "Uncorrelated-noise deprojection bias", "statement": "For white inhomogeneous noise, uncorr_noise_deprojection_bias(f, map_var) is the ensemble average of the auto pseudo-spectra of the cleaned noise maps minus that of the uncleaned ones.", "quantifier": "all templates, masks, variance maps, linear transforms and finite ensembles", "why_tests_cant": "Index order and pixel order matter only off the diagonal, for purified fields or for flipped maps; tests average over components and use HEALPix.", "anchors": ["pymaster/workspaces.py:uncorr_noise_deprojection_bias"]}
{"id": "C46", "title": "Harmonic coefficient layout is a bijection", "statement": "NmtAlmInfo's ordering (l,m) -> index is one-to-one onto 0..nelem-1 and m-major.", "quantifier": "all lmax", "why_tests_cant": "Universal over lmax.", "anchors": ["pymaster/utils.py:NmtAlmInfo"]}
{"id": "C47", "title": "HEALPix ring geometry", "statement": "The ring start pixels and pixel counts used by the Python transforms are those of the C code; over all rings they list every one of the 12 nside^2 pixels once, in order; they are symmetric about the equator; the ring computed from the height of a ring centre is that ring; and a map is accepted as HEALPix exactly if its size is 12 nside^2 with nside a power of two.", "quantifier": "all nside", "why_tests_cant": "Universal over nside and pixels.", "anchors": ["pymaster/utils.py:_SHTInfo.from_healpix", "src/healpix_extra.c:he_ring_num", "src/healpix_extra.c:he_get_ring_limits"]}
{"id": "C48", "title": "Padding of partial-sky CAR maps", "statement": "Extending a partial-sky rectangular map to full rings and cutting back returns the map; added pixels are zero; scalar products of maps are unchanged; and for every pixelisation NmtMapInfo accepts the rings are at least as long as the map is wide, so padding never fails.", "quantifier": "all map sizes and offsets", "why_tests_cant": "Index arithmetic over all offsets.", "anchors": ["pymaster/utils.py:_SHTInfo.pad_map", "pymaster/utils.py:_SHTInfo.unpad_map"]}
{"id": "C49", "title": "CAR axis flips", "statement": "Whatever the orientation of the two axes of a CAR map, the internal map holds at ring i, column j the array pixel that lies at colatitude theta_min + i d_theta and azimuth phi0 + j d_phi; the same sky stored with a reversed axis gives the same internal map; no information is lost; arrays of the wrong shape raise ValueError.", "quantifier": "all map sizes and all flips", "why_tests_cant": "Index arithmetic.", "anchors": ["pymaster/utils.py:NmtMapInfo.reform_map"]}
{"id": "C50", "title": "Iterative map2alm refinement", "statement": "Iterating map2alm leaves an exact transform fixed, is linear in the map, and the residual map after n iterations is the (n+1)-th power of the defect operator (1 - synthesis.analysis) applied to the map.", "quantifier": "all maps, all numbers of iterations", "why_tests_cant": "Induction over iterations.", "anchors": ["pymaster/utils.py:map2alm"]}
{"id": "C51", "title": "Global defaults are validated", "statement": "The set_* functions accept exactly the documented values; a rejected value leaves the settings unchanged; after any history the settings are always valid.", "quantifier": "all histories of calls", "why_tests_cant": "History property.", "anchors": ["pymaster/utils.py:NmtParams", "pymaster/utils.py:set_n_iter_default"]}
{"id": "C52", "title": "Gaussian covariance uses the right pairing", "statement": "Each element of the coupled covariance combines the spectra (a1,b1)(a2,b2)+(a1,b2)(a2,b1), symmetrised in the two multipoles, with the coupling coefficients of the corresponding spin combination and pseudo-spectrum of the products of masks, for all components and spins; workspaces made from fields hold those spectra.", "quantifier": "all spin combinations and spectra", "why_tests_cant": "Index bookkeeping over up to 16 blocks.", "anchors": ["src/nmt_covar.c:nmt_compute_gaussian_covariance", "src/utils.c:coupling index table"]}
{"id": "C53", "title": "Covariance is symmetric under exchanging the two pairs", "statement": "The covariance of (a,b) equals the transpose of that of (b,a); the covariance of a pair with itself is symmetric.", "quantifier": "all spectra and workspaces", "why_tests_cant": "Universal.", "anchors": ["src/nmt_covar.c:nmt_compute_gaussian_covariance"]}
{"id": "C54", "title": "Exchanging fields within a pair", "statement": "Exchanging the two fields of a pair permutes the rows of the covariance.", "quantifier": "all spectra", "why_tests_cant": "Index bookkeeping.", "anchors": ["src/nmt_covar.c:nmt_compute_gaussian_covariance"]}
{"id": "C55", "title": "Decoupled covariance is the sandwich of the coupled one", "statement": "gaussian_covariance(coupled=False) is the unique D with Ma D Mb^T = B C B^T, B the binning operator and C the coupled covariance, for every pair of workspaces with invertible binned coupling matrices; every element of the output is written. (With coupled=True the multipoles outside the bandpowers are never written.)", "quantifier": "all workspaces", "why_tests_cant": "Universal.", "anchors": ["src/nmt_covar.c:nmt_compute_gaussian_covariance", "src/nmt_covar.c:nmt_compute_gaussian_covariance_coupled"]}
{"id": "C56", "title": "Covariance guards", "statement": "gaussian_covariance raises for spectra of the wrong number or length and for workspaces whose multipole ranges do not match.", "quantifier": "all shapes", "why_tests_cant": "Decision table.", "anchors": ["pymaster/covariance.py:gaussian_covariance"]}
{"id": "C57", "title": "Mode counts do not overflow", "statement": "NmtCovarianceWorkspaceFlat normalises the coefficients of each pair of bands by a positive number whenever both bands contain modes and the product of their numbers of modes fits a C int (always so for maps of at most 46340 pixels), and by zero otherwise; the diagonal coefficients of fields with one common mask are then positive. Beyond that size the product overflows.", "quantifier": "all map sizes, fields, masks, bandpowers and thread schedules", "why_tests_cant": "Only huge maps overflow 32-bit integers.", "anchors": ["src/nmt_covar_flat.c:nmt_covar_workspace_flat_init"]}
{"id": "C58", "title": "Apodised masks stay between zero and the input mask", "statement": "For a positive scale, mask_apodization and mask_apodization_flat with C1 or C2 leave masked pixels (value <= 0) as they are, bring every other pixel to a value between 0 and its input value (positive if it does not coincide with a masked one), leave it unchanged if no masked pixel is closer than the scale, and otherwise multiply it by the documented window of the distance to the nearest masked pixel, which grows from 0 to 1. Smooth vanishes wherever the input does.", "quantifier": "all masks, all scales, all pixelisations", "why_tests_cant": "Universal over masks.", "anchors": ["src/nmt_mask.c:apodize_mask_CX", "src/nmt_mask_flat.c:apodize_mask_CX"]}
{"id": "C59", "title": "Apodisation dispatch", "statement": "A zero scale copies the mask (C1, C2); a negative scale, an unknown type and a number of pixels that is not a HEALPix size raise.", "quantifier": "all masks and parameters", "why_tests_cant": "Decision rule.", "anchors": ["src/nmt_mask.c:nmt_apodize_mask", "src/nmt_mask_flat.c:nmt_apodize_mask_flat"]}
{"id": "C60", "title": "Apodisation does not depend on the thread schedule", "statement": "Mask apodisation on the curved and flat sky gives the same result for any number of threads, any assignment of iterations to threads and any interleaving of their memory accesses.", "quantifier": "all interleavings", "why_tests_cant": "Schedules.", "anchors": ["src/nmt_mask.c", "src/nmt_mask_flat.c"]}
{"id": "C61", "title": "Flat Q/U to E/B rotation round trip", "statement": "Rotating Fourier-space Q/U to E/B and back is the identity and preserves |Q|^2+|U|^2 at every wavevector.", "quantifier": "all maps, spins and wavevectors", "why_tests_cant": "Trigonometric identity over all k.", "anchors": ["src/flatsky_utils.c:fs_qu2eb", "src/flatsky_utils.c:fs_eb2qu"]}
{"id": "C62", "title": "Flat power spectrum estimator", "statement": "Each flat bandpower is the average over exactly the Fourier modes of the band that are outside the excluded wavenumber range; bands without modes give zero.", "quantifier": "all maps sizes, edges and ranges", "why_tests_cant": "Universal and schedule.", "anchors": ["src/flatsky_utils.c:fs_alm2cl"]}
{"id": "C63", "title": "Flat decoupling inverts flat coupling", "statement": "For flat-sky workspaces decouple_cell solves the binned system for (spectra - bias - noise): it returns exactly the bandpowers whose image under the binned coupling matrix is that difference. Coupling a spectrum that is constant on each band (and zero outside) and decoupling the result gives back those constants, whatever the masks and the thread schedule; the same holds for the C routine couple_cl_l_flat_quick for any spectrum, giving the mean of the spectrum over the modes of each band. Arguments of the wrong shape and an uncomputed workspace raise.", "quantifier": "all workspaces and bandpowers", "why_tests_cant": "Universal.", "anchors": ["src/nmt_master_flat.c:nmt_decouple_cl_l_flat", "src/nmt_master_flat.c:nmt_couple_cl_l_flat_quick"]}
{"id": "C64", "title": "Flat axis wavenumber", "statement": "Flat-sky apodisation and purification give the documented result if the pixels are square. (Finding: for every geometry whose pixels are not square, apodisation takes the width of a pixel for its height, and purification, which measures wavenumbers in inverse pixels of each axis, leaves B modes in the field of maps that have none.)", "quantifier": "all map geometries", "why_tests_cant": "Only non-square pixels reveal it.", "anchors": ["src/nmt_mask_flat.c", "src/nmt_field_flat.c:nmt_purify_flat"]}
{"id": "C65", "title": "Synthetic maps are reproducible and independent across seeds", "statement": "synfast_flat with the same seed gives the same maps for any number of threads and any order in which the threads start; different seeds use disjoint random streams. synfast_spherical with the same seed gives the same maps.", "quantifier": "all seeds and thread counts", "why_tests_cant": "Schedules.", "anchors": ["src/flatsky_utils.c:fs_synalm", "pymaster/utils.py:synfast_flat"]}
{"id": "C66", "title": "Purifying one component leaves the other unchanged", "statement": "If only B is purified, the E multipoles of the field are those of the unpurified field, and the other way round.", "quantifier": "all spin-2 maps, masks and templates, all transforms", "why_tests_cant": "Universal over maps; tests compare noise levels.", "anchors": ["pymaster/field.py:NmtField._purify"]}
{"id": "C67", "title": "A purified field needs lmax = lmax_mask", "statement": "If lmax and lmax_mask differ, no purified field can be constructed: the sums of multipoles of different lengths raise an exception. (Finding: the documentation does not say so.)", "quantifier": "all arguments that pass the checks before the transforms, all transforms", "why_tests_cant": "The tests only use equal values.", "anchors": ["pymaster/field.py:NmtField._purify"]}
{"id": "C68", "title": "Purification does nothing for a uniform mask", "statement": "If all multipoles of the mask with l>0 vanish, purified and unpurified multipoles are equal.", "quantifier": "all spin-2 maps and transforms mapping zero to zero", "why_tests_cant": "Universal over maps.", "anchors": ["pymaster/field.py:NmtField._purify"]}
{"id": "C69", "title": "Purification treats E and B alike", "statement": "Turning the polarisation by 45 degrees, (Q,U) to (-U,Q), and exchanging the flags purify_e and purify_b turns multipoles (E,B) into (-B,E) and the purified maps likewise.", "quantifier": "all maps, masks, flags, numbers of iterations, transforms that commute with the rotation", "why_tests_cant": "Universal over maps.", "anchors": ["pymaster/field.py:NmtField._purify"]}
{"id": "C70", "title": "Weights of the three terms of purification", "statement": "sqrt((l+2)!/(l-2)!) times a purified B multipole equals the Leibniz expansion of the second derivative of mask times harmonic: the spin-2 multipole of mask times map with factor sqrt((l+2)!/(l-2)!), twice sqrt(l(l+1)) times the spin-1 multipole of the map times the gradient of the mask, plus the spin-0 multipole of the map times the second derivative of the mask; so B vanishes whenever that expansion does (no E-to-B leakage).", "quantifier": "all maps, masks, multipoles l>=2, transforms, with lmax=lmax_mask", "why_tests_cant": "Numerical tests see a wrong weight only as slightly more noise.", "anchors": ["pymaster/field.py:NmtField._purify"]}
{"id": "C71", "title": "Rotating a spin field rotates the covariance", "statement": "Replacing one spin field by a rotated copy of itself (E' = uE - vB, B' = vE + uB in every spectrum it enters) transforms the coupled covariance by the same rotation of the corresponding component, for each of the four fields.", "quantifier": "all spectra, masks, multipoles, spins and rotations", "why_tests_cant": "Universal over spectra and angles; sign errors in single EB blocks are invisible for parity-even spectra.", "anchors": ["src/nmt_covar.c:nmt_compute_gaussian_covariance_coupled", "src/utils.c:cov_get_coupling_pair_index"]}
{"id": "C72", "title": "Full-sky covariance", "statement": "For unit masks the coupled covariance is delta_{l l'} (C^{ac}C^{bd} + C^{ad}C^{bc})/(2l+1) (times f_l^2 as returned), for scalar fields at every multipole and for spin fields at l >= 2; four spin fields have none below.", "quantifier": "all spectra and spins", "why_tests_cant": "Tests compare with simulations to a few per cent.", "anchors": ["src/nmt_covar.c:nmt_covar_workspace_init", "src/nmt_covar.c:nmt_compute_gaussian_covariance_coupled"]}
{"id": "C73", "title": "Variances are non-negative", "statement": "For four copies of one field, the variances of TT, EE and BB are non-negative; a spectrum without variance has no covariance with another one.", "quantifier": "all spectra and mask spectra without negative entries", "why_tests_cant": "Universal; tests only look at temperature and at one set of spectra.", "anchors": ["src/nmt_covar.c:nmt_compute_gaussian_covariance_coupled", "src/utils.c:cov_get_coupling_pair_index"]}
{"id": "C74", "title": "Disc queries do not lose pixels of a ring", "statement": "The pixels of a HEALPix ring returned for an interval of azimuths contain every pixel whose centre lies in the interval, and only pixels whose centres are in it or at most half a pixel spacing away.", "quantifier": "all resolutions, rings, centres and widths", "why_tests_cant": "Depends on rounding of the ends modulo the ring length for each width.", "anchors": ["src/healpix_extra.c:he_in_ring", "src/healpix_extra.c:he_query_disc"]}
{"id": "C75", "title": "Recomputing a covariance workspace", "statement": "Calling compute_coupling_coefficients on a covariance workspace gives the same outcome and the same new contents whatever the workspace held before; arguments that are rejected leave the contents untouched; a failure after the arguments were accepted leaves the workspace empty.", "quantifier": "all previous contents, fields and options", "why_tests_cant": "Tests use fresh workspaces and never look at one after an exception.", "anchors": ["pymaster/covariance.py:compute_coupling_coefficients"]}
{"id": "C76", "title": "compute_full_master equals its documented steps", "statement": "compute_full_master returns exactly what decouple_cell of the workspace returns for compute_coupled_cell of the two fields with cl_bias the deprojection bias of the guess spectra and cl_noise the given noise. The workspace is the one passed in, whatever binning is passed with it, or else the one compute_coupling_matrix builds from the fields and the binning.", "quantifier": "all fields, binnings, workspaces, guess and noise spectra", "why_tests_cant": "Tests compare the two routes on a few fields without deprojection.", "anchors": ["pymaster/workspaces.py:compute_full_master"]}
{"id": "C77", "title": "Flat-sky coupling matrix predicts the mean; decoupling is unbiased", "statement": "For scalar flat-sky maps that are realisations of a statistically isotropic field, the mean of compute_coupled_cell_flat over realisations is the exact convolution of the spectrum (times both beams) with the spectrum of the masks, averaged over the modes of each band. NmtWorkspaceFlat.decouple_cell of it has the true bandpowers as its mean whenever the spectrum is constant within bands and the binned matrix is invertible, and couple_cell predicts the mean coupled spectrum if the spectrum is constant on its rings, for all masks.", "quantifier": "all maps sizes, masks, beams, excluded kx ranges, bandpowers, spectra, weighted ensembles and thread schedules", "why_tests_cant": "Simulations only bound a bias to their Monte Carlo error for the masks tried.", "anchors": ["src/nmt_master_flat.c:nmt_compute_coupling_matrix_flat", "src/nmt_master_flat.c:nmt_decouple_cl_l_flat", "src/flatsky_utils.c:fs_alm2cl"]}
{"id": "C78", "title": "Synthetic flat maps have the requested power and are recovered without bias", "statement": "The scalar maps returned by synfast_flat have, over independent unit Gaussian draws, exactly the pixel covariance of a statistically isotropic field with the interpolated input spectra times the beams, for any number of fields, any correlation between them and any division of the work among threads; hence for two of these maps, masked in any way, decoupling with the workspace of these masks and beams returns the input bandpowers on average.", "quantifier": "all grids, spectra, beams, numbers of fields, thread divisions and orders, seeds, masks and bandpowers", "why_tests_cant": "A Monte Carlo comparison has an error and only covers the grids tried.", "anchors": ["src/flatsky_utils.c:fs_synalm", "src/nmt_field_flat.c:nmt_synfast_flat", "pymaster/utils.py:synfast_flat"]}
{"id": "C79", "title": "Flat-sky Gaussian covariance is exact for white maps", "statement": "For four Gaussian scalar flat-sky maps whose cross spectra are constant, masked by any four masks, gaussian_covariance_flat returns exactly the covariance over realisations of the two decoupled bandpower vectors, for any masks, beams and bandpowers with invertible workspaces, if both spectra use the same bandpowers and no modes are excluded.", "quantifier": "all map sizes, masks, beams, bandpowers, white spectra, Gaussian ensembles and thread schedules", "why_tests_cant": "The test compares to a stored matrix; simulations only bound the difference to Monte Carlo error.", "anchors": ["src/nmt_covar_flat.c:nmt_covar_workspace_flat_init", "src/nmt_covar_flat.c:nmt_compute_gaussian_covariance_flat", "pymaster/covariance.py:gaussian_covariance_flat", "pymaster/covariance.py:NmtCovarianceWorkspaceFlat"]}
{"id": "C80", "title": "Flat-sky purification removes leakage", "statement": "For square pixels and maps and a mask whose joint band limit the grid can represent, a NmtFieldFlat built with purify_b from maps without B modes has no B modes, for any mask, so all its bandpowers that involve B vanish above k=0; the same for E. Without purification B modes appear for some masks in every geometry. The component that is not purified is the one of the unpurified field, whatever the templates.", "quantifier": "all map geometries, masks, maps, binnings and excluded ranges, all fields correlated with it, all templates (last clause)", "why_tests_cant": "Tests compare with simulations within their scatter; leakage at single modes and for unusual masks is below it.", "anchors": ["src/nmt_field_flat.c:nmt_purify_flat", "src/nmt_field_flat.c:nmt_field_flat_alloc", "pymaster/field.py:NmtFieldFlat"]}
{"id": "C82", "title": "Flat-sky deprojection bias is exact", "statement": "For flat-sky fields cleaned of any templates, the mean coupled spectrum equals that of the uncleaned fields plus deprojection_bias_flat called with the true spectra, for any spins, masks, purification and excluded ranges; so with the true spectra as guess the mean of compute_full_master_flat over any ensemble is the one without templates. For scalar isotropic maps with a spectrum constant in every band, seen through any two masks and beams and cleaned of any templates, it is the true bandpowers.", "quantifier": "all map geometries, masks, spins, template sets, tolerances, purification flags, excluded ranges, binnings, noise biases and ensembles correlated with the guess spectra", "why_tests_cant": "Tests compare means of simulations with a scatter for one mask and one template set; an error in one of the bias terms can be below it.", "anchors": ["src/nmt_master_flat.c:nmt_compute_deprojection_bias_flat", "pymaster/workspaces.py:deprojection_bias_flat", "pymaster/workspaces.py:compute_full_master_flat", "src/nmt_field_flat.c:nmt_field_flat_alloc"]}
{"id": "C83", "title": "compute_full_master_flat equals its documented steps", "statement": "compute_full_master_flat returns bandpowers exactly when calling compute_coupling_matrix (unless a workspace is given), deprojection_bias_flat, compute_coupled_cell_flat and decouple_cell in turn does, and they are the same. Without a guess and without templates it equals the steps without deprojection bias when there are at least two bands and both fields keep their maps; it aborts the process for a single band, refuses lite fields, and accesses memory out of bounds if the workspace has another number of spectra.", "quantifier": "all fields (any spins, masks, purification, templates), binnings, guesses, noise biases, workspaces, excluded ranges and orders of the threads", "why_tests_cant": "Tests run it for a few fields with default arguments; single bands, lite fields and foreign workspaces are not exercised.", "anchors": ["pymaster/workspaces.py:compute_full_master_flat", "src/nmt_master_flat.c:nmt_compute_power_spectra_flat", "pymaster/namaster.i:comp_pspec_flat"]}
{"id": "C81", "title": "Contaminant templates are removed from flat-sky fields", "statement": "The maps returned by NmtFieldFlat.get_maps are orthogonal (sum over components and pixels) to every template returned by get_templates, also when templates are proportional or otherwise dependent. Adding any linear combination of the templates to the input maps builds the same field; so it does with purification if the templates are independent. Without purification, masked_on_input=True with maps and templates multiplied by the mask builds the same field, and values of maps and templates outside the mask do not matter. A lite field has the same harmonic coefficients. Templates that all vanish inside the mask, and templates much fainter than another one (tol_pinv), break this.", "quantifier": "all sizes, masks, spins, maps, any number of templates, all coefficients of the added combination, masked or unmasked input; exact eigen-decomposition in which dropped eigenvalues are zero", "why_tests_cant": "Tests deproject one template from one map; dependent, hidden and faint templates and arbitrary combinations are not exercised.", "anchors": ["src/nmt_field_flat.c:nmt_field_flat_alloc", "src/utils.c:moore_penrose_pinv", "pymaster/field.py:NmtFieldFlat"]}
{"id": "C84", "title": "Flat-sky workspaces survive a FITS round trip", "statement": "A computed NmtWorkspaceFlat that is written with write_to and read with read_from has the same matrices, LU factors, bands, mode counts, flags and number of spectra; numbers stored as keywords come back as their 15-digit rendering. decouple_cell gives exactly the same results and errors; couple_cell does too if the stored keywords are exact, and a second round trip changes nothing further. Missing files, units and keywords raise RuntimeError and leave an empty workspace. couple_cell is not in general the same after the rounding of the pixel sizes, and files with inconsistent sizes are accepted.", "quantifier": "all fields, binnings, cuts, flags, spectra and biases; all LU factorisations that solve the system; all roundings of keywords; all file contents (failures)", "why_tests_cant": "Tests write and read one workspace and compare one spectrum with a tolerance; rounding of keywords and malformed files are not exercised.", "anchors": ["src/nmt_io.c:nmt_workspace_flat_write_fits", "src/nmt_io.c:nmt_workspace_flat_read_fits", "pymaster/workspaces.py:NmtWorkspaceFlat"]}
{"id": "C85", "title": "Covariance workspaces survive a FITS round trip", "statement": "A NmtCovarianceWorkspace made from fields and written with write_to is read back with the same lmax, spin0_only and coupling coefficients, and gaussian_covariance returns the same values and errors with the original, the original after writing, and the copy. With force_spin0_only the copy gives the same covariances for four scalar fields and none for other non-negative spins. Files without the keyword SPIN0_ONLY are read as complete. A flat-sky covariance workspace comes back identical. Missing files or tables and files of the other kind raise and leave an empty object. The number of rows of the tables is not checked, and opposite spins pass the scalar-only check.", "quantifier": "all fields, Toeplitz options, spins, spectra, mode-coupling workspaces; all binnings of flat-sky workspaces; all file contents (failures)", "why_tests_cant": "Tests compare one element of one covariance after one round trip; forced scalar reading, old files and malformed files are hardly exercised.", "anchors": ["src/nmt_io.c:nmt_covar_workspace_write_fits", "src/nmt_io.c:nmt_covar_workspace_read_fits", "src/nmt_io.c:nmt_covar_workspace_flat_read_fits", "pymaster/covariance.py:NmtCovarianceWorkspace"]}
{"id": "C86", "title": "Flat-sky spectra of polarised maps: mean, unbiasedness and parity", "statement": "For two flat-sky maps of any spins (T, E/B) that are realisations of statistically isotropic fields, the mean of compute_coupled_cell_flat is the exact convolution of the spectra (times both beams) with the spectrum of the masks, with E and B mixed by the angle between the wavevectors. If the masks do not distinguish a direction from its mirror image (for instance masks equal to their mirror image), decouple_cell has the true bandpowers of all spectra as its mean and couple_cell predicts the mean of all coupled spectra. For all masks the coupling matrix has no coefficient between spectra of opposite parity (EE and EB, TE and TB), so that the spectra of one parity are unbiased if those of the other parity vanish. For a mask without mirror symmetry it is not true that EB and TB come out unbiased.", "quantifier": "all sizes, pixel shapes, non-negative spins, masks, beams, cuts (symmetric in ky; in kx for the parity statements), contiguous bands without Nyquist rows, spectra, weighted ensembles, thread schedules", "why_tests_cant": "Simulations bound a bias only to their Monte Carlo error and use mirror-symmetric or smooth masks and vanishing EB.", "anchors": ["src/nmt_master_flat.c:nmt_compute_coupling_matrix_flat", "src/nmt_master_flat.c:nmt_decouple_cl_l_flat", "src/nmt_master_flat.c:nmt_couple_cl_l_flat_fast", "src/flatsky_utils.c:fs_map2alm", "src/flatsky_utils.c:fs_alm2cl"]}
{"id": "C87", "title": "Flat-sky spectra of purified maps: mean, unbiasedness and no E/B mixing", "statement": "For two flat-sky maps of which E and/or B are purified, square pixels, and maps and mask resolved by the grid, that are realisations of statistically isotropic fields, the mean of compute_coupled_cell_flat is the convolution of the spectra with the spectrum of the masks in which a purified component receives no power from the other one and is weighted by (k'/k)^2. decouple_cell with the workspace of the purified fields has the true bandpowers as its mean if the masks are mirror symmetric, and for all masks for the spectra of one parity if those of the other vanish; couple_cell predicts the mean of the coupled spectra. For all masks and binnings the coupling matrix of purified fields has no coefficient from B to a spectrum with purified E, nor from E to a spectrum with purified B.", "quantifier": "all sizes, masks, beams, choices of purified components of either field, contiguous bands without the origin and Nyquist rows, cuts symmetric in ky, spectra, weighted ensembles, thread schedules; C87_no_mixing: all pixel shapes, masks, bands, cuts", "why_tests_cant": "Tests compare one purified spectrum of one mask with stored numbers; simulations bound the bias and the leakage only to their Monte Carlo error.", "anchors": ["src/nmt_master_flat.c:nmt_compute_coupling_matrix_flat", "src/nmt_master_flat.c:nmt_decouple_cl_l_flat", "src/nmt_field_flat.c:nmt_purify_flat", "pymaster/field.py:NmtFieldFlat"]}
{"id": "C88", "title": "Gaussian covariance of polarised flat-sky spectra", "statement": "For Gaussian white-noise maps of spins 0 and 2 on the flat sky (T, Q, U independent in every pixel) and their constant spectra, gaussian_covariance_flat returns the exact covariance of the spectra computed from the maps with the same masks, beams and bands: for all elements of even parity, and for those of odd parity if the products of the masks are mirror symmetric, unless all four fields have spin 2. If at least one field has spin 0, the matrix is the covariance of the decoupled bandpowers. For four spin-2 fields this is false: the covariance of EE and BB is -4 times the true one (a negative number for a quantity that is positive), and those of EB with EB and with BE are too large by 5 times the covariance of EE and BB in total.", "quantifier": "all sizes, pixel shapes, four masks and beams, amplitudes of the noise and correlations between the fields, contiguous bands without Nyquist rows, weighted Gaussian ensembles, thread schedules; spins 0 and 2", "why_tests_cant": "The covariance is compared with stored numbers or with noisy simulations of diagonal elements; (EE,BB) elements are small and are not compared.", "anchors": ["src/nmt_covar_flat.c:nmt_covar_workspace_flat_init", "src/nmt_covar_flat.c:nmt_compute_gaussian_covariance_flat", "src/utils.c:cov_get_coupling_pair_index", "pymaster/covariance.py:gaussian_covariance_flat"]}
{"id": "C89", "title": "Curved-sky apodisation finds the nearest masked pixel", "statement": "For C1 and C2 apodisation of a HEALPix mask, a pixel whose nearest masked pixel is closer than the apodisation scale is multiplied by the documented function of that distance, and a pixel that is farther away keeps its value, for every pixel such that the disc of 1.2 times the scale (plus 1.071 pi/(4 nside), the margin of the disc query) around it contains no pole. The disc query itself returns every pixel whose centre is closer than the radius, unless the part of a ring outside the disc is shorter than one pixel. For scales between 50 and 150 degrees the list of pixels never overflows. Close to a pole the claim is false: there are masks with a pixel that is closer to the masked pixel than the scale and keeps its value.", "quantifier": "all resolutions, masks, pixels, scales, both window types; real arithmetic with the true sine, cosine, square root", "why_tests_cant": "The test apodises one mask with holes far from the poles and compares a handful of pixels; the loss affects single pixels of the rings next to a pole.", "anchors": ["src/nmt_mask.c:apodize_mask_CX", "src/healpix_extra.c:he_query_disc", "src/healpix_extra.c:he_in_ring", "src/healpix_extra.c:he_ring_num", "pymaster/utils.py:mask_apodization"]}
{"id": "C90", "title": "Multipole sampling of flat-sky spectra", "statement": "NmtFieldFlat.get_ell_sampling returns the multipoles (i+1/2) w, where w is the smaller of 2 pi/lx and 2 pi/ly, for as many steps w as fit below the largest wavenumber of the map. Every Fourier mode below the last step is counted by the unbinned coupling matrix at exactly one of these multipoles, the one within half a step of its wavenumber; modes beyond the last step (less than one step from the largest wavenumber) are not counted.", "quantifier": "all numbers of pixels, all positive sizes (including strips whose sides differ by any factor), all Fourier modes", "why_tests_cant": "The test compares the array for one square map with an independent copy of the same loop.", "anchors": ["pymaster/field.py:NmtFieldFlat.get_ell_sampling", "pymaster/namaster.i:get_ell_sampling_flat", "src/nmt_field_flat.c:nmt_flatsky_info_alloc", "src/nmt_master_flat.c:nmt_compute_coupling_matrix_flat"]}
{"id": "C91", "title": "Coupling of scalar fields multiplies angular correlation functions", "statement": "For two scalar fields, the angular correlation function of couple_cell's output is the product of that of the (beam-smoothed) input spectrum and that of the mask spectrum, at every angle, whenever the band limits of the two fit below lmax; in particular its value at zero separation is the product of the two variances. A constant (white) spectrum N is coupled into N times the sum of (2L+1) W_L/(4 pi), at every multipole to which the mask's band limit leaves room. If the mask spectrum is nowhere negative, a spectrum between 0 and N is coupled into one between 0 and N times that sum, whatever the band limits.", "quantifier": "all binnings, lmax, mask spectra, beams, input spectra and angles (cosines)", "why_tests_cant": "The tests compare a few coupled spectra with stored numbers or with simulations to within the noise; the identity holds for all spectra and relates multipoles that no test compares.", "anchors": ["pymaster/workspaces.py:NmtWorkspace.compute_coupling_matrix", "pymaster/workspaces.py:NmtWorkspace.couple_cell", "src/nmt_master.c:nmt_compute_master_coefficients", "src/utils.c:drc3jj_000", "src/nmt_master.c:nmt_couple_cl_l"]}
{"id": "C92", "title": "The recursion for Wigner-3j symbols is right", "statement": "drc3jj (the routine behind all coupling coefficients of fields with spin) fills its array with the Wigner-3j symbols: the one row of numbers that satisfies the three-term recursion of angular momentum theory, the orthogonality sum and the phase convention at the largest l1. Such a row exists for every admissible l2, l3, m2, m3, and it has the symmetries that users of coupling coefficients rely on (exchange of two columns, reversal of all m, vanishing by parity, the value at l1 = 0). The routine returns it however early the forward recursion is stopped, without any access outside the array and without using a variable that has no value; symbols with |m| > l are zero. The arrays that the coupling code passes to it are long enough. For m2 = m3 = 0 it returns the closed form that drc3jj_000 evaluates, so that both routines agree. With these symbols the full-sky limit, the symmetry of the anisotropic matrices and their isotropic limit hold without assumptions on 3j symbols.", "quantifier": "all quantum numbers, array lengths and previous contents of the array; exact arithmetic with any positive cut-off values. Rows with a non-zero symbol below the smaller cut-off (about 1e-154) are excluded; for m2 = m3 = 0 there are none (proved)", "why_tests_cant": "The C test compares some symbols with tabulated values; the matching point of the two recursions, the sign and the array bounds (marked 'is the index ok??' in the code) depend on all four quantum numbers.", "anchors": ["src/utils.c:drc3jj", "src/utils.c:drc3jj_000", "src/nmt_master.c:nmt_compute_master_coefficients"]}
{"id": "C93", "title": "Synthetic maps on the sphere have the requested spectra and are read back by NmtField", "statement": "synfast_spherical accepts exactly the calls that its documentation allows (one spectrum for every pair of maps, no negative spin, one beam for every field, pixels that cover the whole sphere). NmtField, given the maps of one of the fields, the same WCS and a mask of ones, reads back the transform of the coefficients that were drawn times the beam of that field, whatever the orientation of the axes; if the transform is exact on them, it recovers the coefficients for any number of iterations. On average over draws with the requested spectra, compute_coupled_cell of any two of the fields returns the input spectra of that pair (in row-major order of the upper triangle), times both beams, at all multipoles. Rectangular maps have complete rings and reach both poles to within 1e-4 rad.", "quantifier": "all numbers of fields, spins, spectra, beams, HEALPix resolutions, WCS steps and orientations, and all distributions of coefficients with the given mean products", "why_tests_cant": "The tests compare the spectra of single realisations with the input to within cosmic variance for two or three fields on one or two pixelisations.", "anchors": ["pymaster/utils.py:synfast_spherical", "pymaster/utils.py:NmtMapInfo", "pymaster/field.py:NmtField", "pymaster/workspaces.py:compute_coupled_cell"]}
{"id": "C94", "title": "Pseudo-C_l on the sphere are unbiased: mean spectra and bandpowers of masked scalar fields", "statement": "For scalar fields on any pixelisation, with any masks and beams, the mean of compute_coupled_cell over realisations of an isotropic sky is what NmtWorkspace.couple_cell makes of the spectrum of that sky, at every multipole for which the masks have no power beyond lmax_mask that could couple the signal to it; otherwise the difference is the coupling by the missing power of the masks. Only pixels inside the masks matter. The mean of the decoupled bandpowers is the spectrum averaged with get_bandpower_windows. For catalogues the auto-spectrum, after the subtractions of the field's and of the mask's shot noise, has the same mean, for any noise that is independent between sources. The cross-spectra of two catalogues, and of a catalogue and a map, have the mean given by couple_cell without any subtraction of noise. If the fields are cleaned of contaminant templates, the mean of their coupled spectrum is couple_cell of the spectrum plus deprojection_bias called with that spectrum (times the beams); given that bias, decouple_cell returns bandpowers whose mean is again the spectrum averaged with the bandpower windows.", "quantifier": "all masks, beams, spectra, pixelisations, binnings, numbers of sources and weights, and all ensembles of skies with the given mean products between pixels", "why_tests_cant": "The tests average a few simulations with one mask at one resolution, or compare with stored numbers; they cannot tell a small bias from sample variance, nor go over all masks and spectra.", "anchors": ["pymaster/workspaces.py:compute_coupled_cell", "pymaster/workspaces.py:NmtWorkspace.compute_coupling_matrix", "pymaster/workspaces.py:NmtWorkspace.couple_cell", "pymaster/workspaces.py:NmtWorkspace.decouple_cell", "pymaster/field.py:NmtField", "pymaster/field.py:NmtFieldCatalog", "src/master.c:nmt_compute_master_coefficients", "pymaster/workspaces.py:deprojection_bias"]}
