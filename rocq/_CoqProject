-Q theories Verif
theories/Base.v
theories/ListUtil.v
theories/NumpyLoader.v
theories/LoaderSpec.v
theories/NumpyLoaderProofs.v
theories/NumpyLoaderApi.v
theories/NumpyLoaderFinal.v
theories/GenInstance.v
theories/PropertiesLoader.v
theories/Requests.v
theories/RequestsSpec.v
theories/RequestsProofs.v
theories/RequestsHist.v
theories/DataCore.v
theories/DataSpec.v
theories/DataProofs.v
theories/DataFinal.v
theories/FullMapper.v
theories/FullMapperSpec.v
theories/FullMapperProofs.v
theories/PropertiesData.v
theories/Hdf5Loader.v
theories/Uuid.v
theories/DeviceData.v
theories/DeviceDataProofs.v
theories/PropertiesDevice.v
theories/Pytree.v
theories/PytreeSpec.v
theories/PytreeProofs.v
theories/PytreeNames.v
theories/Io.v
theories/IoSpec.v
theories/IoProofs.v
theories/Hdf5Collector.v
theories/Hdf5CollectorProofs.v
theories/JsonProofs.v
theories/IoThreads.v
theories/IoFinal.v
theories/PropertiesIo.v
theories/Xreal.v
theories/Scheduler.v
theories/SchedulerSpec.v
theories/SchedulerProofs.v
theories/StepSizeProofs.v
theories/PropertiesScheduler.v
theories/Solver.v
theories/SolverSpec.v
theories/SolverProofs.v
theories/SolverFinal.v
theories/PropertiesSolver.v
theories/Mh.v
theories/MhProofs.v
theories/PropertiesMh.v
theories/TreeUtil.v
theories/TreeUtilSpec.v
theories/TreeUtilProofs.v
theories/ListMapProofs.v
theories/PropertiesUtil.v
theories/Integrator.v
theories/IntegratorSpec.v
theories/IntegratorBasics.v
theories/LangevinProofs.v
theories/ObaboProofs.v
theories/LeapfrogProofs.v
theories/LeapfrogFinal.v
theories/KeyBasics.v
theories/ObaboFinal.v
theories/ReverseExist.v
theories/BalanceSpec.v
theories/BalanceProofs.v
theories/ExpectSpec.v
theories/ExpectProofs.v
theories/MhIntegrators.v
theories/PropertiesIntegrator.v
theories/PropertiesBalance.v
theories/KeySpec.v
theories/KeyRuns.v
theories/KeyProofs.v
theories/KeySolvers.v
theories/PropertiesKeys.v
theories/Potential.v
theories/PotentialSpec.v
theories/PotentialProofs.v
theories/UnbiasedProofs.v
theories/PropertiesPotential.v
theories/Adaption.v
theories/AdaptionSpec.v
theories/AdaptionProofs.v
theories/PropertiesAdaption.v
theories/Alias.v
theories/PropertiesAlias.v
theories/AliasSgld.v
theories/TfLoader.v
theories/TfSpec.v
theories/TfProofs.v
theories/TfWorld.v
theories/PropertiesTf.v
theories/VolumeSpec.v
theories/VolumeProofs.v
theories/LeapfrogVolume.v
theories/ObaboVolume.v
theories/Stationary.v
theories/PropertiesVolume.v
theories/RiemannSpec.v
theories/RiemannProofs.v
theories/RiemannSums.v
theories/RiemannLimit.v
theories/RiemannIntegral.v
theories/RiemannBounds.v
theories/RiemannAdequacy.v
theories/RiemannWeight.v
theories/PropertiesRiemann.v
theories/ArrayData.v
theories/ArraySpec.v
theories/ArrayProofs.v
theories/ArrayFinal.v
theories/PropertiesArray.v
theories/PropertiesDtypes.v
theories/HostAccess.v
theories/Hub.v
theories/HubSpec.v
theories/HubProofs.v
theories/HubFinal.v
theories/PropertiesHub.v
theories/PropertiesOutdated.v
theories/MapUnbatched.v
theories/PropertiesUnbatched.v
theories/AliasRun.v
theories/AliasHmc.v
theories/AliasData.v
theories/Progress.v
theories/AliasMhRun.v
theories/AliasMh.v
theories/AliasAmagold.v
theories/AliasSggmc.v
theories/AliasReSgld.v
theories/MemoryLoader.v
theories/MemorySpec.v
theories/MemoryProofs.v
theories/PropertiesMemory.v
theories/FloatSizes.v
theories/FloatSizesSpec.v
theories/FloatSizesProofs.v
theories/PropertiesFloat.v
theories/RiemannPositive.v
theories/SggmcOdd.v
theories/PropertiesSggmc.v
theories/ChainSpec.v
theories/StationaryChain.v
theories/ChainAmagold.v
theories/PropertiesChain.v
theories/EndToEndSpec.v
theories/EndToEndProofs.v
theories/PropertiesEndToEnd.v
theories/AliasNoise.v
theories/PropertiesNoise.v
theories/SourceReads.v
theories/MhUserSpec.v
theories/MhUserProofs.v
theories/PropertiesMhUser.v
theories/MhProgram.v
theories/PropertiesMhProgram.v
theories/PropertiesReSgldUser.v
theories/SolverPmap.v
theories/PropertiesPmap.v
theories/MassAdaption.v
theories/PropertiesMass.v
theories/GaussianLimit.v
theories/GaussianMatrix.v
theories/GaussianSpec.v
theories/GaussianProofs.v
theories/PropertiesGaussian.v
theories/PropertiesDeviceAlias.v
theories/PropertiesDeviceMh.v
theories/VarianceProofs.v
theories/PropertiesVariance.v
theories/PropertiesDeviceReSgld.v
theories/PropertiesThinning.v
theories/PropertiesRobbins.v
theories/HostFormat.v
theories/HostComplete.v
theories/FormatLoaders.v
theories/PropertiesFormat.v
theories/PropertiesMask.v
theories/SghmcGaussian.v
theories/PropertiesSghmcGaussian.v
theories/ObaboGaussian.v
theories/PropertiesObaboGaussian.v
theories/MinibatchSpec.v
theories/MinibatchProofs.v
theories/MinibatchVariance.v
theories/PropertiesMinibatchGaussian.v
theories/ConcaveSpec.v
theories/ConcaveProofs.v
theories/PropertiesContraction.v
theories/StabilitySpec.v
theories/StabilityProofs.v
theories/PropertiesStability.v
theories/AverageProofs.v
theories/PropertiesAverages.v
theories/AverageAlias.v
theories/PropertiesAliasAverage.v
theories/PropertiesCoalesce.v
theories/SecondMomentProofs.v
theories/PropertiesSecondMoment.v
theories/PropertiesCovariance.v
theories/ObaboAverageProofs.v
theories/ObaboAverageVary.v
theories/PropertiesObaboAverage.v
theories/ObaboResponse.v
theories/PropertiesObaboAlias.v
theories/SghmcResponse.v
theories/PropertiesSghmcAverage.v
theories/PropertiesThinningAny.v
theories/PropertiesPooled.v
theories/PropertiesObaboStability.v
theories/PropertiesSgldStability.v
