-Q theories Verif
theories/Stream.v
theories/Sources.v
theories/MaskedOut.v
theories/Mixers.v
theories/BlockOps.v
theories/Chain.v
theories/Collect.v
theories/GenSignal.v
theories/Wav.v
theories/Buffer.v
theories/Frames.v
theories/PointSources.v
theories/Cplx.v
theories/Convolve.v
theories/Fourier.v
theories/Beamform.v
theories/Csm.v
theories/Psf.v
theories/Deconv.v
theories/Result.v
theories/Polygon.v
theories/Jordan.v
theories/Orient.v
theories/Simple.v
theories/Grids.v
theories/Environ.v
theories/TimeBeam.v
theories/Das.v
theories/DasTraj.v
theories/MovingGrid.v
theories/Metrics.v
theories/Cache.v
theories/Splitter.v
theories/H5Reg.v
theories/Alias.v
theories/Digest.v
theories/Traits.v
theories/Noise.v
theories/Trigger.v
theories/Tracker.v
theories/Rotation.v
theories/TimeSteer.v
theories/Subspace.v
theories/CsmFit.v
theories/Cleant.v
theories/Cover.v
theories/Dipole.v
theories/SphHarm.v
theories/MovingLine.v
theories/Gridless.v
theories/Gib.v
theories/Signals.v
theories/Announce.v
theories/MicFile.v
theories/FileName.v
theories/BenchFile.v
theories/Rounding.v
theories/SteerVec.v
theories/SynthEv.v
theories/CleantTraj.v
theories/FileCache.v
theories/SoundDevice.v
theories/FreqRange.v
theories/Air.v
theories/PowerWeight.v
theories/GridMore.v
theories/Response.v
theories/Weights.v
theories/Bars.v
theories/CrossSpectra.v
theories/Props_Sources.v
theories/Props_Blocks.v
theories/Props_Collect.v
theories/Props_Frames.v
theories/Props_PointSources.v
theories/Props_Fourier.v
theories/Props_Beamform.v
theories/Props_Results.v
theories/Props_Grids.v
theories/Props_Jordan.v
theories/Props_Environ.v
theories/Props_TimeBeam.v
theories/Props_Metrics.v
theories/Props_Sharing.v
theories/Props_State.v
theories/Props_Trigger.v
theories/Props_Tracker.v
theories/Props_Rotation.v
theories/Props_TimeSteer.v
theories/Props_Subspace.v
theories/Props_CsmFit.v
theories/Props_Cleant.v
theories/Props_Cover.v
theories/Props_Dipole.v
theories/Props_SphHarm.v
theories/Props_MovingLine.v
theories/Props_Gridless.v
theories/Props_Gib.v
theories/Props_Signals.v
theories/Props_Announce.v
theories/Props_Bars.v
theories/Props_CrossSpectra.v
theories/Props_Weights.v
theories/Props_Air.v
theories/Props_PowerWeight.v
theories/Props_GridMore.v
theories/Props_FileCache.v
theories/Props_SoundDevice.v
theories/Props_FreqRange.v
theories/Props_SynthEv.v
theories/Props_CleantTraj.v
theories/Props_Rounding.v
theories/Props_SteerVec.v
theories/Props_MicFile.v
theories/Props_FileName.v
theories/Props_BenchFile.v
theories/Tone.v
theories/Props_Tone.v
theories/Focus.v
theories/Props_Focus.v
theories/Spectral.v
theories/Props_Spectral.v
theories/CleanscOne.v
theories/Props_CleanscOne.v
theories/Rewire.v
theories/Props_Rewire.v
theories/SplitDyn.v
theories/Props_SplitDyn.v
theories/Rays.v
theories/Props_Rays.v
theories/Rigid.v
theories/Props_Rigid.v
theories/Faulty.v
theories/Props_Faulty.v
theories/Store.v
theories/Props_Store.v
theories/Idw.v
theories/Props_Idw.v
theories/Roundoff.v
theories/Props_Roundoff.v
theories/Damas.v
theories/Props_Damas.v
theories/DamasPlus.v
theories/Props_DamasPlus.v
theories/PsfStore.v
theories/Props_PsfStore.v
theories/DamasInv.v
theories/Props_DamasInv.v
theories/CsmPen.v
theories/Props_CsmPen.v
theories/TimeFreq.v
theories/Props_TimeFreq.v
theories/OrthSep.v
theories/Props_OrthSep.v
theories/Resolve.v
theories/Props_Resolve.v
theories/RemovedSep.v
theories/Props_RemovedSep.v
theories/CleanSep.v
theories/Props_CleanSep.v
theories/Heinz.v
theories/AddSound.v
theories/Props_AddSound.v
theories/Perturb.v
theories/Props_Perturb.v
theories/Average.v
theories/Props_Average.v
