-Q theories Verif
theories/Field.v
theories/Base.v
theories/M_Bins.v
theories/L_Bins.v
theories/L_Bins2.v
theories/L_Bins3.v
theories/P_Bins.v
theories/M_FlatBins.v
theories/P_FlatBins.v
theories/M_LinAlg.v
theories/L_LinAlg.v
theories/M_Workspace.v
theories/L_Workspace.v
theories/P_Workspace.v
theories/M_MCM.v
theories/L_MCM.v
theories/L_MCM2.v
theories/L_MCM3.v
theories/P_MCM.v
theories/FieldR.v
theories/P_MCM2.v
theories/P_MCM3.v
theories/L_MCM4.v
theories/P_Aniso.v
theories/M_OMP.v
theories/L_OMP.v
theories/P_OMP.v
theories/M_FITS.v
theories/M_Session.v
theories/L_FITS.v
theories/L_FITS2.v
theories/L_Session.v
theories/P_Session.v
theories/M_Utils.v
theories/L_Utils.v
theories/P_Utils.v
theories/M_Field.v
theories/L_Field.v
theories/L_Field2.v
theories/P_Field.v
theories/P_Field2.v
theories/P_Field3.v
theories/P_Field4.v
theories/P_Field5.v
theories/P_Field6.v
theories/P_Field7.v
theories/P_Purify.v
theories/P_Field8.v
theories/M_Cell.v
theories/L_Cell.v
theories/P_Cell.v
theories/P_Catalog.v
theories/P_Catalog2.v
theories/P_Catalog3.v
theories/L_Lin.v
theories/L_Lin2.v
theories/L_Bias.v
theories/L_Bias2.v
theories/P_Bias.v
theories/P_Bias2.v
theories/P_Bias3.v
theories/P_Bias4.v
theories/M_Covar.v
theories/L_Covar.v
theories/L_Covar2.v
theories/P_Covar.v
theories/P_Covar2.v
theories/P_Covar3.v
theories/P_Covar4.v
theories/P_Covar5.v
theories/P_Covar6.v
theories/M_Apod.v
theories/L_Apod.v
theories/P_Apod.v
theories/P_Apod2.v
theories/M_ApodPar.v
theories/L_ApodPar.v
theories/P_Apod3.v
theories/P_Apod4.v
theories/P_Apod5.v
theories/P_Apod6.v
theories/P_Apod7.v
theories/P_Covar7.v
theories/P_Cell2.v
theories/M_Flat.v
theories/L_Flat.v
theories/L_Flat2.v
theories/L_Flat3.v
theories/P_Flat.v
theories/M_WspFlat.v
theories/L_WspFlat.v
theories/L_WspFlat2.v
theories/P_WspFlat.v
theories/L_FlatMean.v
theories/P_FlatMean.v
theories/M_Syn.v
theories/L_Syn.v
theories/L_Syn2.v
theories/P_Syn.v
theories/M_CovFlat.v
theories/L_CovFlat.v
theories/L_CovFlat2.v
theories/L_CovFlat3.v
theories/L_Wick.v
theories/P_CovFlat.v
theories/M_FieldFlat.v
theories/L_Conv.v
theories/L_Pure.v
theories/L_Pure2.v
theories/L_Pure3.v
theories/P_FieldFlat.v
theories/M_BiasFlat.v
theories/L_FlatLin.v
theories/L_BiasFlat.v
theories/P_BiasFlat.v
theories/P_FullFlat.v
theories/P_FieldFlat2.v
theories/M_FITS2.v
theories/L_FITS3.v
theories/P_FITS2.v
theories/P_FITS3.v
theories/L_FlatMeanSpin.v
theories/P_FlatMeanSpin.v
theories/L_PureMean.v
theories/P_PureMean.v
theories/L_CovPol.v
theories/P_CovPol.v
theories/P_Disc.v
theories/M_FlatEll.v
theories/P_EllFlat.v
theories/L_Legendre.v
theories/P_Legendre.v
theories/M_Wigner.v
theories/P_Wigner.v
theories/P_Wigner2.v
theories/L_Racah.v
theories/P_Wigner3.v
theories/M_SynSph.v
theories/P_SynSph.v
theories/P_SynSph2.v
theories/P_Mean.v
theories/P_Mean2.v
theories/P_Mean3.v
theories/P_Mean4.v
theories/P_Mean5.v
theories/P_Mean6.v
theories/P_Mean7.v
theories/P_Mean8.v
theories/P_Mean9.v
